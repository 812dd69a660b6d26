(** Proofs about printed syntax trees. *)
From Coq Require Import Strings.String Lia.
From Verif Require Import Base Lexer Ast Parser Program Sema SpecLexer SpecParser SpecPrinter LexerFactsProofs ParserCompleteProofs
  ParserFactsProofs SemaProofs Value Text StdLib Json Report AstFmt SpecAst ReportProofs Demo.

(** ** Reading a text piece by piece *)

(** Before [rest], the text is read as some tokens with the property [R]. *)
Definition piece (text rest : bytes) (R : list token -> Prop) : Prop :=
  forall pre, exists t, R t /\
    forall ts, layout InRoot (pre ++ text) rest ts -> layout InRoot pre (text ++ rest) (t ++ ts).

Lemma piece_app a b rest Ra Rb : piece a (b ++ rest) Ra -> piece b rest Rb ->
  piece (a ++ b) rest (fun t => exists ta tb, t = ta ++ tb /\ Ra ta /\ Rb tb).
Proof.
  intros A B pre. destruct (A pre) as (ta & Ha & La), (B (pre ++ a)) as (tb & Hb & Lb). exists (ta ++ tb). split; [eauto|].
  intros ts L. rewrite <- !app_assoc. apply La, Lb. now rewrite <- app_assoc.
Qed.
Lemma piece_weak a rest (R R' : list token -> Prop) : piece a rest R -> (forall t, R t -> R' t) -> piece a rest R'.
Proof. intros A H pre. destruct (A pre) as (t & HR & L). exists t. auto. Qed.
Definition one (k : token_kind) (t : list token) : Prop := exists p, t = [mktoken k p].
Definition none (t : list token) : Prop := t = [].
Lemma piece_token w k rest : token_text w k -> may_follow k rest -> next_mode k = InRoot -> piece w rest (one k).
Proof.
  intros T F N pre. exists [mktoken k (position_of pre)]. split; [eexists; reflexivity|]. intros ts L. cbn [app].
  apply ly_token; auto. now rewrite N.
Qed.
Lemma piece_blank w rest : forallb is_ascii_whitespace w = true -> piece w rest none.
Proof.
  intros B pre. exists []. split; [reflexivity|]. intros ts L. cbn [app]. revert pre B L.
  induction w as [|c w IH]; intros pre B L; [now rewrite app_nil_r in L|]. cbn [app forallb] in *. apply andb_prop in B. destruct B as [Bc Bw].
  apply ly_blank; [exact Bc|]. apply IH; [exact Bw|]. now rewrite <- app_assoc.
Qed.

(** Bytes that can follow any token *)
Definition soft (rest : bytes) : bool :=
  match rest with
  | [] => true
  | c :: _ => existsb (Byte.eqb c) [x20; x0a; x09; x28; x29; x2c; x3a; x5b; x5d]
  end.
Lemma soft_follow k rest : soft rest = true -> may_follow k rest.
Proof.
  destruct rest as [|c rest]; [reflexivity|]. intros H.
  assert (F : word_byte c = false /\ digit c = false /\ c <> "."%byte /\ c <> "e"%byte /\ c <> "E"%byte /\ c <> "="%byte /\ c <> "+"%byte).
  { revert H. destruct c; intros H; try discriminate H; repeat split; discriminate. }
  destruct F as (A & B & C & D & E & G & H').
  destruct k; cbn [may_follow]; auto; match goal with |- context [match ?x with _ => _ end] => destruct x; auto end.
Qed.
Lemma piece_soft w k rest : token_text w k -> soft rest = true -> next_mode k = InRoot -> piece w rest (one k).
Proof. intros T F N. apply piece_token; auto. now apply soft_follow. Qed.
Lemma tabs_blank n : forallb is_ascii_whitespace (tabs n) = true.
Proof. unfold tabs. induction (N.to_nat n); cbn; auto. Qed.
Lemma step_blank c : forallb is_ascii_whitespace (step c) = true.
Proof. destruct c; [|reflexivity]. cbn [step forallb]. now rewrite tabs_blank. Qed.
Lemma margin_blank c : forallb is_ascii_whitespace (margin c) = true.
Proof. destruct c; [apply tabs_blank|reflexivity]. Qed.
Lemma gap_blank c : forallb is_ascii_whitespace (gap c) = true.
Proof. now destruct c. Qed.
Lemma line_end_blank c : forallb is_ascii_whitespace (line_end c) = true.
Proof. now destruct c. Qed.
Lemma soft_step c rest : soft (step c ++ rest) = true.
Proof. now destruct c. Qed.
Lemma soft_gap c rest : soft (gap c ++ rest) = true.
Proof. now destruct c. Qed.

Definition is_inline (c : layout_context) : bool := match c with None => true | Some _ => false end.
Lemma inline_indent c : is_inline (indent c) = is_inline c.
Proof. now destruct c. Qed.

Section Print.
Context {W : Type} (X : ext W) (fd : bytes -> bytes).
Hypothesis no_tty : x_tty X = false.
Hypothesis words : keeps_words X.

Lemma plain_paint c t : paint X c t = t.
Proof. unfold paint. now rewrite no_tty. Qed.
Lemma plain_bold t : bold X t = t.
Proof. unfold bold. now rewrite no_tty. Qed.
Lemma identifier_text s : is_identifier s -> symbol_text X s = s.
Proof. intros (_ & H & _). unfold symbol_text, green. rewrite plain_paint. now apply words. Qed.

Ltac fixed := apply piece_soft; [apply tt_symbol; vm_compute; tauto|try reflexivity|reflexivity].
Lemma piece_keyword k rest : soft rest = true \/ (exists r, rest = bs "."%string ++ r) -> piece (keyword_text X k) rest (one (TKeyword k)).
Proof.
  intros S. apply piece_token; [|destruct S as [S|[r ->]]; [now apply soft_follow|reflexivity]|reflexivity]. apply tt_reserved. unfold keyword_text, blue. rewrite plain_paint. destruct k; vm_compute; tauto.
Qed.
Lemma piece_name s rest : is_identifier s -> soft rest = true \/ (exists r, rest = bs "."%string ++ r) -> piece (symbol_text X s) rest (one (TIdentifier s)).
Proof.
  intros I S. rewrite identifier_text by exact I. apply piece_token; [now constructor| |reflexivity].
  destruct S as [S|[r ->]]; [now apply soft_follow|reflexivity].
Qed.
Lemma piece_binary op rest : soft rest = true -> piece (binary_text X op) rest (one (TOperator (operator_of op))).
Proof.
  intros S. apply piece_soft; [|exact S|reflexivity]. unfold binary_text, operator_text, yellow, blue.
  destruct op; rewrite ?plain_paint; first [apply tt_symbol; vm_compute; tauto|apply tt_reserved; vm_compute; tauto].
Qed.
Lemma piece_unary op rest : soft rest = true ->
  piece (unary_text X op) rest (one (TOperator match op with UMinus => OMinus | UNot => ONot | UTry => OTry end)).
Proof.
  intros S. apply piece_soft; [|exact S|reflexivity]. unfold unary_text, operator_text, yellow, blue.
  destruct op; rewrite ?plain_paint; first [apply tt_symbol; vm_compute; tauto|apply tt_reserved; vm_compute; tauto].
Qed.
Lemma piece_literal l rest : readable_literal (x_escape X) fd l ->
  soft rest = true \/ ((exists r, rest = bs "."%string ++ r) /\ match l with LInt _ | LFloat _ => False | _ => True end) ->
  piece (literal_text X fd l) rest (one (TLiteral l)).
Proof.
  intros R S. apply piece_token; [|destruct S as [S|[[r ->] N]]; [now apply soft_follow|destruct l; try contradiction; exact I || reflexivity]|reflexivity].
  destruct l; cbn [literal_text readable_literal] in *; unfold blue; rewrite ?plain_paint, ?plain_bold.
  1-3: apply tt_reserved; vm_compute; tauto.
  - unfold int_text. replace (n <? 0)%Z with false by (symmetry; apply Z.ltb_ge; lia).
    destruct (digits_of_digits (Z.to_N n)) as [D V]. rewrite Z2N.id in V by lia.
    pose proof (tt_int (digits_of (Z.to_N n)) D ltac:(rewrite V; lia)) as T. now rewrite V in T.
  - destruct R as [F ->]. now constructor.
  - change (bs "'"%string) with ["'"%byte]. cbn [app]. now constructor.
  - cbn [app]. now constructor.
Qed.

Ltac unpack := cbv beta in *; repeat match goal with
  | H : exists _, _ |- _ => destruct H
  | H : _ /\ _ |- _ => destruct H
  end.
Ltac tidy := subst; cbn [app]; rewrite ?app_nil_r, <- ?app_assoc; cbn [app].
(** ** Command blocks *)
Definition cpiece (text rest : bytes) (R : list token -> Prop) : Prop :=
  forall pre, exists t, R t /\ forall ts, layout InCommand (pre ++ text) rest ts -> layout InCommand pre (text ++ rest) (t ++ ts).
Lemma cpiece_app a b rest Ra Rb : cpiece a (b ++ rest) Ra -> cpiece b rest Rb ->
  cpiece (a ++ b) rest (fun t => exists ta tb, t = ta ++ tb /\ Ra ta /\ Rb tb).
Proof.
  intros A B pre. destruct (A pre) as (ta & Ha & La), (B (pre ++ a)) as (tb & Hb & Lb). exists (ta ++ tb). split; [eauto|].
  intros ts L. rewrite <- !app_assoc. apply La, Lb. now rewrite <- app_assoc.
Qed.
Lemma cpiece_weak a rest (R R' : list token -> Prop) : cpiece a rest R -> (forall t, R t -> R' t) -> cpiece a rest R'.
Proof. intros A H pre. destruct (A pre) as (t & HR & L). exists t. auto. Qed.
Lemma cpiece_blank w rest : forallb is_ascii_whitespace w = true -> cpiece w rest none.
Proof.
  intros B pre. exists []. split; [reflexivity|]. intros ts L. cbn [app]. revert pre B L.
  induction w as [|c w IH]; intros pre B L; [now rewrite app_nil_r in L|]. cbn [app forallb] in *. apply andb_prop in B. destruct B as [Bc Bw].
  apply ly_blank; [exact Bc|]. apply IH; [exact Bw|]. now rewrite <- app_assoc.
Qed.
Lemma cpiece_symbol w k rest : In (w, k) command_symbols -> command_may_follow k rest -> cpiece w rest (one k).
Proof. intros I F pre. exists [mktoken k (position_of pre)]. split; [eexists; reflexivity|]. intros ts L. cbn [app]. now apply ly_command_symbol. Qed.
Definition ended (rest : bytes) : Prop := starts_with ends_argument rest.

Lemma parts_read ps : readable_parts (x_escape X) ps -> forall pre, exists us,
  double_units pre (concat (map (part_text X) ps)) us /\ map unplaced_part (map APUnit us) = map unplaced_part ps /\ joined (map APUnit us) = map APUnit us.
Proof.
  induction ps as [|q ps IH]; intros G pre; [exists []; repeat split; constructor|]. destruct q as [[s|s q]|e]; [| |destruct G].
  - cbn [readable_parts] in G. destruct G as (N & Sp & Nx & G). destruct (IH G (pre ++ x_escape X s)) as (us & D & U & J).
    exists (AULiteral s :: us). cbn [map concat part_text unit_text]. split; [|split].
    + apply du_literal; [|exact Sp| |exact D].
      * intros E. rewrite E in Sp. inversion Sp; subst. now apply N.
      * destruct ps as [|[[s2|s2 q2]|e2] ps]; [exact (fun x => x)|destruct Nx| |destruct G]. cbn. discriminate.
    + cbn [unplaced_part unplaced_unit]. cbn [map] in U. now rewrite U.
    + cbn [joined]. cbn [map] in J. rewrite J. destruct us as [|[s2|s2 q2] us].
      * cbn [map]. destruct s; [now destruct N|reflexivity].
      * destruct ps as [|[[s3|s3 q3]|e3] ps]; try discriminate U. destruct Nx.
      * cbn [map]. destruct s; [now destruct N|reflexivity].
  - cbn [readable_parts] in G. destruct G as [I G]. destruct (IH G (pre ++ "$"%byte :: "{"%byte :: s ++ ["}"%byte])) as (us & D & U & J).
    exists (AUDollar s (position_of pre) :: us). cbn [map concat part_text unit_text]. rewrite identifier_text by exact I. split; [|split].
    + change (bs "${"%string) with ["$"%byte; "{"%byte]. change (bs "}"%string) with ["}"%byte]. cbn [app]. rewrite <- app_assoc. cbn [app]. now apply du_braces.
    + cbn [unplaced_part unplaced_unit]. cbn [map] in U. now rewrite U.
    + cbn [joined]. cbn [map] in J. now rewrite J.
Qed.
Lemma shown_text a : arg_pos a <> ill_pos -> argument_shown X a = QUOTE :: concat (map (part_text X) (arg_parts a)) ++ [QUOTE].
Proof.
  intros N. unfold argument_shown. destruct (pos_eqb (arg_pos a) ill_pos) eqn:E; [|reflexivity]. destruct N.
  unfold pos_eqb in E. apply andb_prop in E. destruct E as [E1 E2]. apply N.eqb_eq in E1, E2. destruct (arg_pos a); cbn in *. now subst.
Qed.
Lemma argument_of_quoted us q a : joined (map APUnit us) = map APUnit us -> map unplaced_part (map APUnit us) = map unplaced_part (arg_parts a) ->
  unplaced_argument (argument_of [PDoubleQuoted us] q) = unplaced_argument a.
Proof. intros J U. unfold argument_of, unplaced_argument. cbn [flat_map pieces arg_parts]. rewrite app_nil_r, J. now rewrite U. Qed.
Definition reads_argument (a : ast_argument) (t : list token) : Prop :=
  exists us q, t = [tok (TArgument [PDoubleQuoted us]) q] /\ unplaced_argument (argument_of [PDoubleQuoted us] q) = unplaced_argument a.
Lemma argument_piece a rest : readable_argument (x_escape X) a -> ended rest -> cpiece (argument_shown X a) rest (reads_argument a).
Proof.
  intros [N G] E pre. rewrite shown_text by exact N. destruct (parts_read _ G (pre ++ [QUOTE])) as (us & D & U & J).
  exists [tok (TArgument [PDoubleQuoted us]) (position_of pre)]. split.
  - do 2 eexists. split; [reflexivity|]. now apply argument_of_quoted.
  - intros ts L. cbn [app] in *. apply (ly_argument pre (QUOTE :: concat (map (part_text X) (arg_parts a)) ++ [QUOTE])).
    + discriminate.
    + cbn. discriminate.
    + apply at_double; [exact D|]. now apply at_end.
    + exact L.
Qed.
Definition reads_assignment (kv : arg_unit * ast_argument) (t : list token) : Prop :=
  exists key us q, t = [tok (TArgument [PUnquoted key; PEnvAssign; PDoubleQuoted us]) q] /\ unplaced_unit key = unplaced_unit (fst kv) /\
    unplaced_argument (argument_of [PDoubleQuoted us] q) = unplaced_argument (snd kv).
Lemma assignment_piece key a rest : readable_key (x_escape X) key -> readable_argument (x_escape X) a -> ended rest ->
  cpiece (unit_text X key ++ yellow X (bs "="%string) ++ argument_shown X a) rest (reads_assignment (key, a)).
Proof.
  intros Gk [N G] E pre. rewrite shown_text by exact N. unfold yellow. rewrite plain_paint. change (bs "="%string) with ["="%byte].
  destruct (parts_read _ G (((pre ++ unit_text X key) ++ ["="%byte]) ++ [QUOTE])) as (us & D & U & J).
  set (body := concat (map (part_text X) (arg_parts a))) in *.
  assert (T : forall p, argument_text false (p ++ unit_text X key) (["="%byte] ++ QUOTE :: body ++ [QUOTE]) rest [PEnvAssign; PDoubleQuoted us] \/ p <> pre).
  { intros p. destruct (list_eq_dec Byte.byte_eq_dec p pre) as [->|H]; [left|now right]. cbn [app]. apply at_assign, at_double; [exact D|]. now apply at_end. }
  destruct (T pre) as [T'|[]]; [clear T|reflexivity]. destruct key as [s|s q].
  - destruct Gk as (Ns & Sp & Ti). cbn [unit_text] in *.
    assert (Ne : x_escape X s <> []) by (intros H; rewrite H in Sp; inversion Sp; subst; now apply Ns).
    exists [tok (TArgument [PUnquoted (AULiteral s); PEnvAssign; PDoubleQuoted us]) (position_of pre)]. split.
    + do 3 eexists. split; [reflexivity|]. split; [reflexivity|]. now apply argument_of_quoted.
    + intros ts L. cbn [app] in *. apply (ly_argument pre (x_escape X s ++ "="%byte :: QUOTE :: body ++ [QUOTE])).
      * destruct (x_escape X s); [now destruct Ne|discriminate].
      * destruct (x_escape X s) as [|c r]; [now destruct Ne|]. cbn in *. intros H. apply Ti. rewrite H. apply orb_true_r.
      * apply at_literal; [exact Ne|exact Sp| |cbn; discriminate|exact T'].
        intros _. destruct (x_escape X s) as [|c r]; [now destruct Ne|]. cbn in *. intros H. apply Ti. now rewrite H.
      * exact L.
  - cbn [readable_key] in Gk. cbn [unit_text] in *. rewrite identifier_text in * by exact Gk.
    exists [tok (TArgument [PUnquoted (AUDollar s (position_of pre)); PEnvAssign; PDoubleQuoted us]) (position_of pre)]. split.
    + do 3 eexists. split; [reflexivity|]. split; [reflexivity|]. now apply argument_of_quoted.
    + intros ts L. change (bs "${"%string) with ["$"%byte; "{"%byte] in *. change (bs "}"%string) with ["}"%byte] in *. cbn [app] in *.
      apply (ly_argument pre ("$"%byte :: "{"%byte :: (s ++ ["}"%byte]) ++ "="%byte :: QUOTE :: body ++ [QUOTE])).
      * discriminate.
      * cbn. discriminate.
      * rewrite <- app_assoc. cbn [app]. apply at_braces; [exact Gk|]. exact T'.
      * exact L.
Qed.
Definition reads_fd (n : Z) (t : list token) : Prop :=
  exists s q, t = [tok (TArgument [PUnquoted (AULiteral s)]) q] /\ is_number_text s /\ fd_text s n.
Lemma fd_piece n rest : readable_fd n -> ended rest -> cpiece (int_text n) rest (reads_fd n).
Proof.
  intros G E pre. unfold readable_fd in G. unfold int_text. replace (n <? 0)%Z with false by (symmetry; apply Z.ltb_ge; lia).
  destruct (digits_of_digits (Z.to_N n)) as [[Ne D] V]. rewrite Z2N.id in V by lia. set (w := digits_of (Z.to_N n)) in *.
  exists [tok (TArgument [PUnquoted (AULiteral w)]) (position_of pre)]. split.
  - do 2 eexists. split; [reflexivity|]. split; [exact D|]. exists w. repeat split; auto. lia.
  - intros ts L. cbn [app]. rewrite <- (app_nil_r w) at 1. apply (ly_argument pre (w ++ [])).
    + now rewrite app_nil_r.
    + rewrite app_nil_r. destruct w as [|c w]; [now destruct Ne|]. inversion D; subst. cbn. intros H. destruct c; discriminate.
    + apply at_literal; [exact Ne| | | |].
      * clear - D. induction D as [|c w H D IH]; [constructor|]. apply sp_plain; [destruct c; try discriminate H; reflexivity|destruct c; try discriminate H; discriminate|exact IH].
      * intros _. destruct w as [|c w]; [now destruct Ne|]. inversion D; subst. cbn. intros H. destruct c; discriminate.
      * cbn [app]. destruct rest as [|c rest]; [exact (fun x => x)|]. cbn in *. intros H. destruct c; discriminate.
      * now apply at_end.
    + now rewrite app_nil_r.
Qed.
Ltac cchain := repeat match goal with |- cpiece (_ ++ _) _ _ => eapply cpiece_app end.
Ltac csymbol := apply cpiece_symbol; [unfold yellow; rewrite ?plain_paint; vm_compute; tauto|].
Ltac cblanks := apply cpiece_blank; first [reflexivity|apply step_blank].
Lemma blank_ended c r : is_ascii_whitespace c = true -> ended (c :: r).
Proof. intros H. unfold ended. cbn. unfold ends_argument. now rewrite H. Qed.
Lemma step_ended c r : ended (step c ++ r).
Proof. destruct c; reflexivity. Qed.

Definition reads_redirection (r : redirection) (t : list token) : Prop :=
  exists r', (forall a, gredirection a t r') /\ unplaced_redirection r' = unplaced_redirection r.
Lemma source_of a s q n : is_number_text s -> fd_text s n -> gsource a [tok (TArgument [PUnquoted (AULiteral s)]) q] n.
Proof. intros D F. now constructor. Qed.
Lemma argument_starts a r : arg_pos a <> ill_pos -> exists m, argument_shown X a ++ r = QUOTE :: m.
Proof. intros N. rewrite shown_text by exact N. cbn [app]. eauto. Qed.
Lemma redirection_piece r rest : readable_redirection (x_escape X) r -> ended rest -> cpiece (redirection_text X r) rest (reads_redirection r).
Proof.
  intros G E. destruct r as [|n [m|a|a]|lit a]; cbn [redirection_text target_text readable_redirection] in *.
  - destruct G.
  - destruct G as [Gn Gm]. eapply cpiece_weak; [cchain; [apply fd_piece; [exact Gn|reflexivity]|csymbol|apply fd_piece; [exact Gm|exact E]]|].
    + unfold readable_fd in Gm. unfold int_text. replace (m <? 0)%Z with false by (symmetry; apply Z.ltb_ge; lia). destruct (digits_of_digits (Z.to_N m)) as [[Ne D] _].
      destruct (digits_of (Z.to_N m)) as [|c w]; [now destruct Ne|]. inversion D; subst. cbn [app command_may_follow]. intros ->. discriminate.
    + unfold reads_fd, one. intros t Ht. unpack. tidy. eexists. split; [|reflexivity]. intros aa. 
      match goal with |- gredirection _ (?x :: ?r) _ => change (x :: r) with ([x] ++ r) end. apply gr_fd; [now apply source_of|eassumption].
  - destruct G as [Gn Ga]. eapply cpiece_weak; [cchain; [apply fd_piece; [exact Gn|reflexivity]|csymbol|apply argument_piece; [exact Ga|exact E]]|].
    + destruct (argument_starts a rest (proj1 Ga)) as [m' ->]. discriminate.
    + unfold reads_fd, reads_argument, one. intros t Ht. unpack. tidy. eexists (ROutputTo n (ROverwrite _)). split; [intros aa|].
      * match goal with |- gredirection _ (?x :: ?r) _ => change (x :: r) with ([x] ++ r) end. apply gr_overwrite; [now apply source_of|discriminate].
      * cbn [unplaced_redirection unplaced_target]. congruence.
  - destruct G as [Gn Ga]. eapply cpiece_weak; [cchain; [apply fd_piece; [exact Gn|reflexivity]|csymbol|apply argument_piece; [exact Ga|exact E]]|].
    + destruct (argument_starts a rest (proj1 Ga)) as [m' ->]. exact I.
    + unfold reads_fd, reads_argument, one. intros t Ht. unpack. tidy. eexists (ROutputTo n (RAppend _)). split; [intros aa|].
      * match goal with |- gredirection _ (?x :: ?r) _ => change (x :: r) with ([x] ++ r) end. apply gr_append. now apply source_of.
      * cbn [unplaced_redirection unplaced_target]. congruence.
  - destruct lit; (eapply cpiece_weak; [cchain; [csymbol|apply argument_piece; [exact G|exact E]]|]).
    1, 3: destruct (argument_starts a rest (proj1 G)) as [m' ->]; first [exact I|discriminate].
    all: unfold reads_argument, one; intros t Ht; unpack; tidy; eexists; (split; [intros aa; apply gr_input|cbn [unplaced_redirection]; congruence]).
Qed.
Lemma operators_piece rs (abort : bool) rest : Forall (readable_redirection (x_escape X)) rs -> ended rest ->
  cpiece (concat (map (fun r => bs " "%string ++ redirection_text X r) rs) ++ (if abort then [] else bs " "%string ++ command_operator_text X CTry)) rest
    (fun t => exists rs', (forall a, goperators a t rs' abort) /\ map unplaced_redirection rs' = map unplaced_redirection rs).
Proof.
  intros G E. induction G as [|r rs Gr G IH].
  - cbn [map concat app]. destruct abort.
    + eapply cpiece_weak; [now apply cpiece_blank|]. intros t ->. exists []. split; [constructor|reflexivity].
    + unfold command_operator_text. eapply cpiece_weak; [cchain; [cblanks|csymbol; destruct rest; exact I]|].
      unfold none, one. intros t Ht. unpack. tidy. exists []. split; [intros a; apply go_try|reflexivity].
  - cbn [map concat]. rewrite <- !app_assoc. eapply cpiece_weak; [eapply cpiece_app; [cblanks|eapply cpiece_app; [apply redirection_piece; [exact Gr|]|exact IH]]|].
    + destruct rs; cbn [map concat app]; [destruct abort; [exact E|reflexivity]|reflexivity].
    + unfold none, reads_redirection. intros t Ht. unpack. tidy. eexists (_ :: _). split; [intros a; apply go_redirection; auto|]. cbn [map]. congruence.
Qed.
Lemma arguments_piece args rest : Forall (readable_argument (x_escape X)) args -> ended rest ->
  cpiece (concat (map (fun a => bs " "%string ++ argument_shown X a) args)) rest
    (fun t => exists args', (forall r, garguments r t args') /\ map unplaced_argument args' = map unplaced_argument args).
Proof.
  intros G E. induction G as [|a args Ga G IH].
  - cbn [map concat]. eapply cpiece_weak; [now apply cpiece_blank|]. intros t ->. exists []. split; [constructor|reflexivity].
  - cbn [map concat]. rewrite <- app_assoc. eapply cpiece_weak; [eapply cpiece_app; [cblanks|eapply cpiece_app; [apply argument_piece; [exact Ga|]|exact IH]]|].
    + destruct args; [exact E|reflexivity].
    + unfold none, reads_argument. intros t Ht. unpack. tidy. eexists (_ :: _). split; [intros r; apply ga_cons; [intros (s & H & _); discriminate H|auto]|]. cbn [map]. congruence.
Qed.
Lemma environment_piece env rest : Forall (fun kv => readable_key (x_escape X) (fst kv) /\ readable_argument (x_escape X) (snd kv)) env ->
  cpiece (concat (map (fun kv => unit_text X (fst kv) ++ yellow X (bs "="%string) ++ argument_shown X (snd kv) ++ bs " "%string) env)) rest
    (fun t => exists env', genvironment t env' /\
      map (fun kv => (unplaced_unit (fst kv), unplaced_argument (snd kv))) env' = map (fun kv => (unplaced_unit (fst kv), unplaced_argument (snd kv))) env).
Proof.
  intros G. induction G as [|[k a] env [Gk Ga] G IH]; cbn [fst snd] in *.
  - cbn [map concat]. eapply cpiece_weak; [now apply cpiece_blank|]. intros t ->. exists []. split; [constructor|reflexivity].
  - cbn [map concat fst snd].
    assert (Hassoc : (unit_text X k ++ yellow X (bs "="%string) ++ argument_shown X a ++ bs " "%string) = (unit_text X k ++ yellow X (bs "="%string) ++ argument_shown X a) ++ bs " "%string) by now rewrite <- !app_assoc.
    rewrite Hassoc. rewrite <- app_assoc. eapply cpiece_weak; [eapply cpiece_app; [apply assignment_piece; [exact Gk|exact Ga|reflexivity]|eapply cpiece_app; [cblanks|exact IH]]|].
    unfold none, reads_assignment. intros t Ht. unpack. tidy. eexists (_ :: _). split; [apply ge_cons; eassumption|]. cbn [map fst snd] in *. congruence.
Qed.
Lemma basic_piece b rest : readable_basic (x_escape X) b -> ended rest ->
  cpiece (basic_text X b) rest (fun t => exists b', gbasic t b' /\ unplaced_basic b' = unplaced_basic b).
Proof.
  intros (Ge & Gp & Ga & Gr) E. unfold basic_text.
  eapply cpiece_weak; [eapply cpiece_app; [apply environment_piece, Ge|eapply cpiece_app; [apply argument_piece; [exact Gp|]|eapply cpiece_app; [apply arguments_piece; [exact Ga|]|apply operators_piece; [exact Gr|exact E]]]]|].
  - destruct (bc_arguments b); [|reflexivity]. cbn [map concat app]. destruct (bc_redirections b); [|reflexivity]. destruct (bc_abort b); [exact E|reflexivity].
  - destruct (bc_redirections b); [|reflexivity]. cbn [map concat app]. destruct (bc_abort b); [exact E|reflexivity].
  - unfold reads_argument. intros t Ht. unpack. tidy. eexists. split; [apply gb; [eassumption|reflexivity|auto|auto]|].
    unfold unplaced_basic. cbn [bc_program bc_env bc_arguments bc_redirections bc_abort]. congruence.
Qed.
Lemma command_piece c rest : readable_command (x_escape X) c -> ended rest ->
  cpiece (command_text X c) rest (fun t => exists c', gcommand t c' /\ unplaced_command c' = unplaced_command c).
Proof.
  intros [Gh Gt] E. destruct c as [h tl]. unfold command_text. cbn [cmd_head cmd_tail] in *.
  assert (T : cpiece (concat (map (fun b => bs " "%string ++ yellow X (bs "|"%string) ++ bs " "%string ++ basic_text X b) tl)) rest
    (fun t => exists tl', gpipe t tl' /\ map unplaced_basic tl' = map unplaced_basic tl)).
  { clear Gh. induction Gt as [|b tl Gb Gt IH].
    - cbn [map concat]. eapply cpiece_weak; [now apply cpiece_blank|]. intros t ->. exists []. split; [constructor|reflexivity].
    - cbn [map concat]. rewrite <- !app_assoc. eapply cpiece_weak; [eapply cpiece_app; [cblanks|eapply cpiece_app; [csymbol; exact I|eapply cpiece_app; [cblanks|eapply cpiece_app; [apply basic_piece; [exact Gb|]|exact IH]]]]|].
      + destruct tl; [exact E|reflexivity].
      + unfold none, one. intros t Ht. unpack. tidy. eexists (_ :: _). split; [apply gpi_cons; eassumption|]. cbn [map]. congruence. }
  eapply cpiece_weak; [eapply cpiece_app; [apply basic_piece; [exact Gh|]|exact T]|].
  - destruct tl; [exact E|reflexivity].
  - intros t Ht. unpack. tidy. eexists. split; [apply gc; eassumption|]. unfold unplaced_command. cbn [cmd_head cmd_tail]. congruence.
Qed.
Lemma commands_piece c cs rest : Forall (readable_command (x_escape X)) cs -> ended rest ->
  cpiece (concat (map (fun d => bs ";"%string ++ step c ++ command_text X d) cs)) rest
    (fun t => exists cs', map unplaced_command cs' = map unplaced_command cs /\
      match cs with [] => t = [] /\ cs' = [] | _ => exists p t', t = tok TSemicolon p :: t' /\ gcommands t' cs' end).
Proof.
  intros G E. induction G as [|d cs Gd G IH].
  - cbn [map concat]. eapply cpiece_weak; [now apply cpiece_blank|]. intros t ->. exists []. auto.
  - cbn [map concat]. rewrite <- !app_assoc.
    eapply cpiece_weak; [eapply cpiece_app; [csymbol; destruct c; exact I|eapply cpiece_app; [cblanks|eapply cpiece_app; [apply command_piece; [exact Gd|]|exact IH]]]|].
    + destruct cs; [exact E|reflexivity].
    + unfold none, one. intros t Ht. unpack. subst. destruct cs as [|d2 cs].
      * unpack. tidy. match goal with H : gcommand _ ?c' |- _ => exists [c'] end. split; [cbn [map]; congruence|]. do 2 eexists. split; [reflexivity|]. rewrite ?app_nil_r. apply gcs_one. eassumption.
      * unpack. tidy. match goal with H : gcommand _ ?c', H2 : gcommands _ ?cs' |- _ => exists (c' :: cs') end. split; [cbn [map] in *; congruence|]. do 2 eexists. split; [reflexivity|]. apply gcs_cons; eassumption.
Qed.
Lemma command_block_piece c b rest : readable_command_block (x_escape X) b ->
  piece (command_block_text X c b) rest (fun t => exists b' p, gcommand_block t b' p /\ unplaced_command_block b' = unplaced_command_block b).
Proof.
  intros [Gh Gt]. destruct b as [kind h cs]. unfold command_block_text. cbn [cb_kind cb_head cb_tail] in *. intros pre.
  set (body := step (indent c) ++ command_text X h ++ concat (map (fun d => bs ";"%string ++ step (indent c) ++ command_text X d) cs) ++ step c).
  assert (B : cpiece body (bs "}"%string ++ rest) (fun t => exists th ts h' cs', t = th ++ ts /\ gcommand th h' /\ unplaced_command h' = unplaced_command h /\
    map unplaced_command cs' = map unplaced_command cs /\ match cs with [] => ts = [] /\ cs' = [] | _ => exists p t', ts = tok TSemicolon p :: t' /\ gcommands t' cs' end)).
  { eapply cpiece_weak; [eapply cpiece_app; [cblanks|eapply cpiece_app; [apply command_piece; [exact Gh|]|eapply cpiece_app; [apply commands_piece; [exact Gt|]|cblanks]]]|].
    - destruct cs; [apply step_ended|reflexivity].
    - apply step_ended.
    - unfold none. intros t Ht. unpack. tidy. do 4 eexists. split; [reflexivity|]. split; [eassumption|]. split; [assumption|]. split; eassumption. }
  set (k := match kind with Synchronous => TCommand | Asynchronous => TAsyncCommand | Capture => TCaptureCommand end).
  assert (K : token_text (block_kind_text kind) k /\ opens k = Some kind /\ next_mode k = InCommand /\ forall r, may_follow k r).
  { subst k. split; [|split; [now destruct kind|split; [now destruct kind|intros [|x r]; now destruct kind]]]. apply tt_symbol. destruct kind; vm_compute; tauto. }
  destruct K as (K1 & K2 & K3 & K4). destruct (B (pre ++ block_kind_text kind)) as (t & (th & ts & h' & cs' & -> & Gh' & Uh & Ucs & S) & L).
  exists (tok k (position_of pre) :: (th ++ ts) ++ [tok TCloseCommand (position_of ((pre ++ block_kind_text kind) ++ body))]). split.
  - exists (mkblock kind h' cs'), (position_of pre). split; [|unfold unplaced_command_block; cbn [cb_kind cb_head cb_tail]; congruence]. destruct cs as [|d cs].
    + destruct S as [-> ->]. rewrite app_nil_r. now apply gcb_one.
    + destruct S as (p & t' & -> & Gcs). rewrite <- app_assoc. cbn [app]. now apply gcb_more.
  - intros us Ly.
    assert (E1 : (block_kind_text kind ++ step (indent c) ++ command_text X h ++ concat (map (fun d => bs ";"%string ++ step (indent c) ++ command_text X d) cs) ++ step c ++ bs "}"%string) = block_kind_text kind ++ body ++ bs "}"%string)
      by (subst body; now rewrite <- !app_assoc).
    rewrite E1 in *. replace (pre ++ block_kind_text kind ++ body ++ bs "}"%string) with (((pre ++ block_kind_text kind) ++ body) ++ ["}"%byte]) in Ly by now rewrite <- !app_assoc.
    apply ly_close in Ly. apply L in Ly. rewrite <- app_assoc. cbn [app]. apply ly_token; [exact K1|apply K4|]. rewrite K3. rewrite <- !app_assoc in *. exact Ly.
Qed.
(** ** What the pieces are read as *)
Definition reads_expr (e : expr) (t : list token) : Prop :=
  exists e', gexpr 1 t e' /\ unplaced e' = unplaced e /\ forall x, continues (t ++ x) = opens_with_bracket e.
Definition reads_exprs (es : list expr) (t : list token) : Prop :=
  exists es', gexprs t es' /\ map unplaced es' = map unplaced es.
Definition reads_items (items : list ((symbol * pos) * expr)) (t : list token) : Prop :=
  exists items', gitems t items' /\
    map (fun kv => (unplaced_name (fst kv), unplaced (snd kv))) items' = map (fun kv => (unplaced_name (fst kv), unplaced (snd kv))) items.
Definition reads_params (ps : list (symbol * pos)) (t : list token) : Prop :=
  exists ps', gparams t ps' /\ map unplaced_name ps' = map unplaced_name ps.
Definition reads_statement (s : statement) (t : list token) : Prop :=
  match s with
  | SReturn e _ => exists p t' e', t = kw KReturn p :: t' /\ gexpr 9 t' e' /\ unplaced e' = unplaced e
  | _ => exists s' ends, gstatement t s' ends /\ unplaced_statement s' = unplaced_statement s /\ (ends = true -> may_go_on s = true) /\
      forall x, continues (t ++ x) = statement_opens s
  end.
Definition reads_block (b : block) (t : list token) : Prop :=
  forall nested, exists ss', gstatements nested t ss' /\ BBlock (map unplaced_statement ss') = unplaced_block b /\
    continues t = match b with BBlock (s :: _) => statement_opens s | _ => false end.

Definition follows (e : expr) (rest : bytes) : Prop :=
  soft rest = true \/ ((exists r, rest = bs "."%string ++ r) /\ ~ is_number e).
Notation text := (expr_text X fd).
Notation good := (readable (x_escape X) fd).
Notation good_block := (readable_block (x_escape X) fd).
Definition Pe (e : expr) : Prop := forall c rest, good (is_inline c) e -> follows e rest -> piece (text c e) rest (reads_expr e).
Definition Ps (s : statement) : Prop := forall c rest, readable_statement (x_escape X) fd (is_inline c) s -> soft rest = true ->
  piece (statement_text X fd c s) rest (reads_statement s).
Definition Pb (b : block) : Prop := forall c rest, good_block (is_inline c) b -> soft rest = true -> piece (block_text X fd c b) rest (reads_block b).

Lemma up9 t e : gexpr 1 t e -> gexpr 9 t e.
Proof. intros H. do 8 (apply g_up; [lia|]). exact H. Qed.
Lemma up1 t e : gexpr 0 t e -> gexpr 1 t e.
Proof. intros H. apply g_up; [lia|]. exact H. Qed.


Ltac chain := repeat match goal with |- piece (_ ++ _) _ _ => eapply piece_app end.
Lemma sep_by_cons sep x y r : sep_by sep (x :: y :: r) = x ++ sep ++ sep_by sep (y :: r).
Proof. reflexivity. Qed.
Lemma soft_comma x : soft (bs ","%string ++ x) = true.
Proof. reflexivity. Qed.


Ltac free := apply piece_token; [apply tt_symbol; vm_compute; tauto|match goal with |- may_follow _ ?r => destruct r; exact I end|reflexivity].

Lemma exprs_piece bl1 bl2 c es : forallb is_ascii_whitespace bl1 = true -> forallb is_ascii_whitespace bl2 = true -> Forall Pe es ->
  all_of (good (is_inline c)) es -> forall rest, soft rest = true ->
  piece (sep_by (bs ","%string ++ bl2) (map (fun e => bl1 ++ text c e) es)) rest (reads_exprs es).
Proof.
  intros B1 B2 H. induction H as [|e es He H IH]; intros G rest S.
  - cbn [map sep_by]. eapply piece_weak; [now apply piece_blank|]. intros t ->. exists []. split; [constructor|reflexivity].
  - cbn [all_of] in G. destruct G as [Ge G]. destruct es as [|e2 es].
    + cbn [map sep_by]. eapply piece_weak; [eapply piece_app; [now apply piece_blank|apply He; [exact Ge|now left]]|].
      unfold none, reads_expr, reads_exprs. intros t Ht. unpack. tidy. eexists [_]. cbn [map]. split; [apply gx_one, up9; eassumption|congruence].
    + specialize (IH G rest S). rewrite !map_cons in *. rewrite sep_by_cons.
      eapply piece_weak; [chain|].
      * now apply piece_blank.
      * apply He; [exact Ge|left; rewrite <- app_assoc; apply soft_comma].
      * free.
      * now apply piece_blank.
      * exact IH.
      * unfold none, one, reads_expr, reads_exprs. intros t Ht. unpack. tidy. eexists (_ :: _). split; [apply gx_cons; [apply up9; eassumption|eassumption]|].
        cbn [map] in *. congruence.
Qed.
Lemma items_piece bl c items : forallb is_ascii_whitespace bl = true -> Forall (fun kv => Pe (snd kv)) items ->
  all_of (fun kv => is_identifier (fst (fst kv)) /\ good (is_inline c) (snd kv)) items -> forall rest, soft rest = true ->
  piece (sep_by (bs ","%string) (map (fun kv => bl ++ symbol_text X (fst (fst kv)) ++ bs ": "%string ++ text c (snd kv)) items)) rest (reads_items items).
Proof.
  intros B H. induction H as [|[[s p] e] items He H IH]; intros G rest S.
  - cbn [map sep_by]. eapply piece_weak; [now apply piece_blank|]. intros t ->. exists []. split; [constructor|reflexivity].
  - cbn [all_of fst snd] in *. destruct G as [[Gi Ge] G].
    assert (One : forall r, soft r = true -> piece (bl ++ symbol_text X s ++ bs ": "%string ++ text c e) r (fun t => exists p' q t' e',
      t = tok (TIdentifier s) p' :: tok TColon q :: t' /\ gexpr 9 t' e' /\ unplaced e' = unplaced e)).
    { intros r Sr. change (bs ": "%string) with (bs ":"%string ++ bs " "%string). eapply piece_weak; [chain|].
      - now apply piece_blank.
      - apply piece_name; [exact Gi|left; reflexivity].
      - free.
      - now apply piece_blank.
      - apply He; [exact Ge|now left].
      - unfold none, one, reads_expr. intros t Ht. unpack. tidy. do 4 eexists. split; [reflexivity|]. split; [apply up9; eassumption|assumption]. }
    destruct items as [|kv2 items].
    + cbn [map sep_by fst snd]. eapply piece_weak; [now apply One|].
      unfold reads_items. intros t Ht. unpack. tidy. eexists [_]. split; [apply gi_one; eassumption|]. cbn [map fst snd]. unfold unplaced_name. cbn [fst snd]. match goal with H : unplaced _ = _ |- _ => now rewrite H end.
    + specialize (IH G rest S). rewrite !map_cons in *. rewrite sep_by_cons. cbn [fst snd] in *.
      eapply piece_weak; [eapply piece_app; [apply One|eapply piece_app; [|exact IH]]|].
      * rewrite <- app_assoc. apply soft_comma.
      * free.
      * unfold none, one, reads_expr, reads_items. intros t Ht. unpack. tidy. eexists (_ :: _). split; [apply gi_cons; eassumption|].
        cbn [map fst snd] in *. unfold unplaced_name in *. cbn [fst snd] in *. congruence.
Qed.
Lemma params_piece ps : all_of (fun sp => is_identifier (fst sp)) ps -> forall rest, soft rest = true ->
  piece (sep_by (bs ", "%string) (map (fun p => symbol_text X (fst p)) ps)) rest (reads_params ps).
Proof.
  induction ps as [|[s p] ps IH]; intros G rest S.
  - cbn [map sep_by]. eapply piece_weak; [now apply piece_blank|]. intros t ->. exists []. split; [constructor|reflexivity].
  - cbn [all_of fst snd] in *. destruct G as [Gi G]. destruct ps as [|p2 ps].
    + cbn [map sep_by fst]. eapply piece_weak; [apply piece_name; [exact Gi|now left]|]. unfold one. intros t [q ->]. exists [(s, q)]. split; [constructor|reflexivity].
    + specialize (IH G rest S). rewrite !map_cons in *. rewrite sep_by_cons. cbn [fst] in *. change (bs ", "%string) with (bs ","%string ++ bs " "%string) at 1.
      eapply piece_weak; [chain|].
      * apply piece_name; [exact Gi|left; reflexivity].
      * free.
      * now apply piece_blank.
      * exact IH.
      * unfold none, one, reads_params. intros t Ht. unpack. tidy. eexists (_ :: _). split; [apply gpa_cons; eassumption|].
        cbn [map fst snd] in *. unfold unplaced_name in *. cbn [fst snd] in *. congruence.
Qed.
Ltac opened := unfold none, one, reads_expr, reads_exprs, reads_items, reads_params in *; intros ?t ?Ht; unpack; tidy.
Ltac same := cbn [unplaced map]; unfold unplaced_name in *; cbn [fst snd] in *; congruence.
Ltac blanks := apply piece_blank; first [reflexivity|apply step_blank|apply margin_blank|apply gap_blank|apply line_end_blank].
Lemma soft_follows e r : soft r = true -> follows e r.
Proof. now left. Qed.
Lemma closing (B : bool) c rest : soft ((if B then [] else step c) ++ bs "]"%string ++ rest) = true.
Proof. now destruct B, c. Qed.

Lemma array_case es p : Forall Pe es -> Pe (EArray es p).
Proof.
  intros H c rest G _. cbn [readable] in G. cbn [expr_text].
  assert (E : (match es with [] => [] | _ => step c end) = if match es with [] => true | _ => false end then [] else step c) by now destruct es.
  rewrite E. eapply piece_weak; [chain|].
  - free.
  - apply (exprs_piece (step (indent c)) [] (indent c)); [apply step_blank|reflexivity|exact H|now rewrite inline_indent|].
    rewrite <- app_assoc. apply closing.
  - apply piece_blank. destruct es; [reflexivity|apply step_blank].
  - free.
  - opened. eexists. split; [apply up1, g_array; eassumption|]. split; [same|reflexivity].
Qed.
Lemma dict_case items p : Forall (fun kv => Pe (snd kv)) items -> Pe (EDict items p).
Proof.
  intros H c rest G _. cbn [readable] in G. cbn [expr_text].
  assert (E : (match items with [] => [] | _ => step c end) = if match items with [] => true | _ => false end then [] else step c) by now destruct items.
  rewrite E. eapply piece_weak; [chain|].
  - free.
  - apply items_piece; [apply step_blank|exact H|now rewrite inline_indent|]. rewrite <- app_assoc. apply closing.
  - apply piece_blank. destruct items; [reflexivity|apply step_blank].
  - free.
  - opened. eexists. split; [apply up1, g_dict; eassumption|]. split; [same|reflexivity].
Qed.
Lemma block_of b t nested : reads_block b t -> exists ss, gstatements nested t ss /\ BBlock (map unplaced_statement ss) = unplaced_block b.
Proof. intros H. destruct (H nested) as (ss & A & B & _). eauto. Qed.
Lemma loosely e rest : follows e rest -> soft rest = true \/ (exists r, rest = bs "."%string ++ r).
Proof. intros [S|[[r ->] _]]; eauto. Qed.
Lemma function_case ps b p : Pb b -> Pe (EFunction ps b p).
Proof.
  intros H c rest G F. cbn [readable] in G. destruct G as [G1 G2]. cbn [expr_text].
  eapply piece_weak; [chain|].
  - apply piece_keyword. now left.
  - free.
  - apply params_piece; [exact G1|reflexivity].
  - free.
  - blanks.
  - apply H; [now rewrite inline_indent|]. rewrite <- app_assoc. apply soft_step.
  - blanks.
  - apply piece_keyword. eapply loosely, F.
  - opened. match goal with H : reads_block _ _ |- _ => apply (block_of _ _ true) in H end. unpack.
    eexists. split; [apply up1, g_function; apply gf; eassumption|]. split; [|reflexivity]. cbn [unplaced unplaced_block]. congruence.
Qed.
Lemma up k t e : gexpr 1 t e -> k <= 8 -> gexpr (S k) t e.
Proof. intros H. induction k as [|k IH]; intros L; [exact H|]. apply g_up; [lia|]. apply IH. lia. Qed.
Lemma raise k t e n : gexpr n t e -> n + k <= 9 -> gexpr (n + k) t e.
Proof. intros H. induction k as [|k IH]; intros L; [now rewrite Nat.add_0_r|]. replace (n + S k) with (S (n + k)) by lia. apply g_up; [lia|]. apply IH. lia. Qed.
Lemma unary_case op e p : Pe e -> Pe (EUnary op e p).
Proof.
  intros H c rest G F. cbn [readable] in G. cbn [expr_text].
  assert (Shape : forall inner, (forall r, soft r = true -> piece inner r (fun t => exists e' q, gexpr 9 t (EUnary op e' q) /\ unplaced e' = unplaced e)) ->
    piece (bs "("%string ++ inner ++ bs ")"%string) rest (reads_expr (EUnary op e p))).
  { intros inner Q. eapply piece_weak; [chain; [free|apply Q; reflexivity|free]|]. opened. eexists. split; [apply up1, g_parens; eassumption|]. split; [same|reflexivity]. }
  apply Shape. intros r S. destruct op.
  - eapply piece_weak; [chain; [apply piece_unary; reflexivity|blanks|apply H; [exact G|now left]]|]. opened.
    do 2 eexists. split; [|eassumption]. apply (raise 7 _ _ 2); [|lia]. eapply g_prefix; [reflexivity|]. apply (up 1); [eassumption|lia].
  - eapply piece_weak; [chain; [apply piece_unary; reflexivity|blanks|apply H; [exact G|now left]]|]. opened.
    do 2 eexists. split; [|eassumption]. apply (raise 7 _ _ 2); [|lia]. eapply g_prefix; [reflexivity|]. apply (up 1); [eassumption|lia].
  - eapply piece_weak; [chain; [apply H; [exact G|now left]|blanks|apply piece_unary; exact S]|]. opened.
    do 2 eexists. split; [|eassumption]. apply (raise 8 _ _ 1); [|lia]. eapply g_try. eassumption.
Qed.
Lemma binary_case l op r p : Pe l -> Pe r -> Pe (EBinary l op r p).
Proof.
  intros Hl Hr c rest G F. cbn [readable] in G. destruct G as [Gl Gr]. cbn [expr_text].
  eapply piece_weak; [chain; [free|apply Hl; [exact Gl|now left]|blanks|apply piece_binary; reflexivity|blanks|apply Hr; [exact Gr|now left]|free]|].
  opened.
  assert (B : exists k, binop (operator_of op) = Some (S (S (S k)), op) /\ k <= 6) by (destruct op; eexists; (split; [reflexivity|lia])).
  destruct B as (k & B & L). eexists. split.
  - apply up1. match goal with |- gexpr 0 (?a :: ?x ++ ?o :: ?y ++ ?z) _ => change (a :: x ++ o :: y ++ z) with (a :: x ++ (o :: y) ++ z); rewrite (app_assoc x) end.
    apply g_parens.
    replace 9 with (S (S (S k)) + (6 - k)) by lia. apply raise; [|lia]. eapply g_binary; [exact B|apply up; [eassumption|lia]|apply up; [eassumption|lia]].
  - split; [same|reflexivity].
Qed.
Lemma soft_block s ss r : soft (block_text X fd None (BBlock (s :: ss)) ++ r) = true.
Proof. cbn [block_text]. destruct ss; reflexivity. Qed.
(** A body, left out when it has no statements *)
Lemma body_piece b c rest : Pb b -> good_block (is_inline c) b ->
  piece (if is_empty_block b then [] else block_text X fd (indent c) b ++ gap c) rest (reads_block b).
Proof.
  intros H G. destruct b as [|[|s ss]]; [destruct G| |].
  - cbn [is_empty_block]. eapply piece_weak; [now apply piece_blank|]. intros t -> nested. exists []. split; [constructor|]. split; reflexivity.
  - cbn [is_empty_block]. eapply piece_weak; [chain; [apply H; [now rewrite inline_indent|apply soft_gap]|blanks]|]. unfold none. intros t Ht. unpack. tidy. assumption.
Qed.
Lemma if_case cond th el p : Pe cond -> Pb th -> Pb el -> Pe (EIf cond th el p).
Proof.
  intros Hc Ht He c rest G F. cbn [readable] in G. destruct G as (Gc & Gt & Ge & N). cbn [expr_text].
  assert (Else : forall r, piece (if is_empty_block el then [] else keyword_text X KElse ++ line_end c ++ block_text X fd (indent c) el ++ gap c ++ margin c) r
    (fun t => exists e', gelse t e' /\ unplaced_block e' = unplaced_block el)).
  { intros r. destruct el as [|[|s ss]]; [destruct Ge| |].
    - cbn [is_empty_block]. eapply piece_weak; [now apply piece_blank|]. intros t ->. exists (BBlock []). split; [constructor|reflexivity].
    - cbn [is_empty_block]. eapply piece_weak; [chain; [apply piece_keyword; left|blanks|apply He; [now rewrite inline_indent|]|blanks|blanks]|].
      + destruct c; [reflexivity|]. cbn [line_end app indent option_map]. rewrite <- app_assoc. apply soft_block.
      + rewrite <- app_assoc. apply soft_gap.
      + opened. match goal with H : reads_block _ _ |- _ => apply (block_of _ _ true) in H end. unpack. eexists. split; [apply gel_else; eassumption|]. cbn [unplaced_block] in *. congruence. }
  eapply piece_weak; [chain|].
  - apply piece_keyword. now left.
  - blanks.
  - apply Hc; [exact Gc|now left].
  - blanks.
  - apply piece_keyword. left. destruct c; [reflexivity|]. destruct th as [|[|s ss]]; [destruct Gt|exfalso; apply N; [reflexivity|exact I]|].
    cbn [is_empty_block line_end app indent option_map]. rewrite <- !app_assoc. apply soft_block.
  - blanks.
  - apply body_piece; assumption.
  - blanks.
  - apply Else.
  - apply piece_keyword. eapply loosely, F.
  - opened. match goal with H : reads_block _ _ |- _ => apply (block_of _ _ true) in H end. unpack. eexists. split.
    + apply up1. 
      match goal with |- gexpr 0 (?a :: ?x ++ ?o :: ?y ++ ?z ++ ?w) _ => replace (a :: x ++ o :: y ++ z ++ w) with (a :: (x ++ o :: y ++ z) ++ w) by (now rewrite <- ?app_assoc; cbn [app]; rewrite <- ?app_assoc) end.
      apply g_if, gcn; [apply up9| |]; eassumption.
    + split; [|reflexivity]. cbn [unplaced unplaced_block] in *. congruence.
Qed.
Lemma access_case o f p : Pe o -> Pe f -> Pe (EAccess o f p).
Proof.
  intros Ho Hf c rest G F.
  assert (D : (exists s q, f = EFieldName s q) \/ ((forall s q, f <> EFieldName s q) /\ (match f with EFieldName _ _ => bs "."%string ++ expr_text X fd inlined f | _ => bs "["%string ++ expr_text X fd inlined f ++ bs "]"%string end
      = bs "["%string ++ expr_text X fd inlined f ++ bs "]"%string) /\ good true o /\ good true f)).
  { destruct f; try (right; split; [discriminate|split; [reflexivity|exact G]]). left. eauto. }
  destruct D as [(s & q & ->)|(D & E & Go & Gf)].
  - cbn [readable] in G. destruct G as (Go & N & Gi). cbn [expr_text].
    eapply piece_weak; [chain; [apply Ho; [exact Go|right; split; [|exact N]; eexists; rewrite <- app_assoc; reflexivity]|free|apply piece_name; [exact Gi|eapply loosely, F]]|].
    opened. eexists. split; [apply g_dot; eassumption|]. split; [same|]. intros y. rewrite <- app_assoc. cbn [opens_with_bracket]. auto.
  - cbn [expr_text]. rewrite E. 
    eapply piece_weak; [chain; [apply Ho; [exact Go|now left]|free|apply Hf; [exact Gf|now left]|free]|].
    opened. eexists. split; [apply g_index; [|apply up9]; eassumption|]. split; [same|]. intros y. rewrite <- app_assoc. cbn [opens_with_bracket]. auto.
Qed.
Lemma call_case f args p : Pe f -> Forall Pe args -> Pe (ECall f args p).
Proof.
  intros Hf Ha c rest G F. cbn [readable] in G. destruct G as [Gf Ga]. cbn [expr_text].
  eapply piece_weak; [chain; [apply Hf; [exact Gf|now left]|free|apply (exprs_piece [] (bs " "%string) None args); [reflexivity|reflexivity|exact Ha|exact Ga|reflexivity]|free]|].
  opened. eexists. split; [apply g_call; eassumption|]. split; [same|]. intros y. rewrite <- app_assoc. cbn [opens_with_bracket]. auto.
Qed.
Lemma expr_cases : (forall p, Pe (ESelf p)) /\ (forall s p, Pe (EIdent s p)) /\ (forall l p, Pe (ELit l p)).
Proof.
  repeat split.
  - intros p c rest G F. cbn [expr_text]. eapply piece_weak; [apply piece_keyword; eapply loosely, F|]. opened. eexists. split; [apply up1, g_self|]. split; reflexivity.
  - intros s p c rest G F. cbn [expr_text]. eapply piece_weak; [apply piece_name; [exact G|eapply loosely, F]|]. opened. eexists. split; [apply up1, g_ident|]. split; reflexivity.
  - intros l p c rest G F. cbn [expr_text]. eapply piece_weak; [apply piece_literal; [exact G|]|].
    + destruct F as [S|[E N]]; [now left|right]. split; [exact E|]. now destruct l; try (apply N; exact I).
    + opened. eexists. split; [apply up1, g_literal|]. split; reflexivity.
Qed.

(** ** Statements and blocks *)
Ltac bodies := repeat match goal with H : reads_block _ _ |- _ => apply (block_of _ _ true) in H end; unpack.
Lemma statement_cases :
  (forall x e p, Pe e -> Ps (SLet x e p)) /\ (forall l r p, Pe l -> Pe r -> Ps (SAssign l r p)) /\ (forall e p, Pe e -> Ps (SReturn e p)) /\
  (forall p, Ps (SBreak p)) /\ (forall c b p, Pe c -> Pb b -> Ps (SWhile c b p)) /\ (forall x e b p, Pe e -> Pb b -> Ps (SFor x e b p)) /\
  (forall e, Pe e -> Ps (SExpr e)).
Proof.
  repeat split.
  - intros x e p H c rest G S. cbn [readable_statement] in G. destruct G as [Gi G]. cbn [statement_text].
    change (bs " = "%string) with (bs " "%string ++ bs "="%string ++ bs " "%string). rewrite <- !app_assoc.
    eapply piece_weak; [chain; [apply piece_keyword; now left|blanks|apply piece_name; [exact Gi|now left]|blanks|fixed|blanks|apply H; [exact G|now left]]|].
    opened. do 2 eexists. split; [apply gs_let, up9; eassumption|]. split; [cbn [unplaced_statement]; congruence|]. split; reflexivity.
  - intros l r p Hl Hr c rest G S. cbn [readable_statement] in G. destruct G as [Gl Gr]. cbn [statement_text].
    change (bs " = "%string) with (bs " "%string ++ bs "="%string ++ bs " "%string). rewrite <- !app_assoc.
    eapply piece_weak; [chain; [apply Hl; [exact Gl|now left]|blanks|fixed|blanks|apply Hr; [exact Gr|now left]]|].
    opened. do 2 eexists. split; [apply gs_assign; apply up9; eassumption|]. split; [cbn [unplaced_statement]; congruence|]. split; [reflexivity|].
    intros y. rewrite <- app_assoc. cbn [statement_opens]. auto.
  - intros e p H c rest G S. cbn [readable_statement] in G. cbn [statement_text].
    eapply piece_weak; [chain; [apply piece_keyword; now left|blanks|apply H; [exact G|now left]]|].
    opened. do 3 eexists. split; [reflexivity|]. split; [apply up9; eassumption|assumption].
  - intros p c rest G S. cbn [statement_text]. eapply piece_weak; [apply piece_keyword; now left|]. opened. do 2 eexists. split; [apply gs_break|].
    split; [reflexivity|]. split; [discriminate|reflexivity].
  - intros cond b p Hc Hb c rest G S. cbn [readable_statement] in G. destruct G as [Gc Gb]. cbn [statement_text].
    eapply piece_weak; [chain; [apply piece_keyword; now left|blanks|apply Hc; [exact Gc|now left]|blanks|apply piece_keyword; left; rewrite <- app_assoc; apply soft_gap|blanks|apply body_piece; assumption|blanks|apply piece_keyword; now left]|].
    opened. bodies. do 2 eexists. split; [apply gs_while; [apply up9|]; eassumption|]. split; [cbn [unplaced_statement unplaced_block]; congruence|]. split; [discriminate|reflexivity].
  - intros x e b p He Hb c rest G S. cbn [readable_statement] in G. destruct G as (Gi & Ge & Gb). cbn [statement_text].
    eapply piece_weak; [chain; [apply piece_keyword; now left|blanks|apply piece_name; [exact Gi|now left]|blanks|apply piece_keyword; now left|blanks|apply He; [exact Ge|now left]|blanks|apply piece_keyword; left; rewrite <- app_assoc; apply soft_gap|blanks|apply body_piece; assumption|blanks|apply piece_keyword; now left]|].
    opened. bodies. do 2 eexists. split; [apply gs_for; [apply up9|]; eassumption|]. split; [cbn [unplaced_statement unplaced_block]; congruence|]. split; [discriminate|reflexivity].
  - intros e H c rest G S. cbn [statement_text]. eapply piece_weak; [apply H; [exact G|now left]|]. opened. do 2 eexists. split; [apply gs_expr, up9; eassumption|].
    split; [cbn [unplaced_statement]; congruence|]. split; [reflexivity|assumption].
Qed.
Lemma one_statement s t : reads_statement s t -> match s with SReturn _ _ => False | _ => True end ->
  exists s' ends, gstatement t s' ends /\ unplaced_statement s' = unplaced_statement s /\ (ends = true -> may_go_on s = true) /\
      forall x, continues (t ++ x) = statement_opens s.
Proof. intros H N. destruct s; try exact H. destruct N. Qed.
Lemma last_statement s t : reads_statement s t -> reads_block (BBlock [s]) t.
Proof.
  intros H nested. assert (D : (exists e p, s = SReturn e p) \/ match s with SReturn _ _ => False | _ => True end) by (destruct s; eauto).
  destruct D as [(e & p & ->)|D].
  - destruct H as (q & t' & e' & -> & G & U). exists [SReturn e' q]. split; [apply gss_return; exact G|]. split; [|reflexivity].
    cbn [unplaced_block unplaced_statement map]. now rewrite U.
  - destruct (one_statement s t H D) as (s' & ends & G & U & _ & C). exists [s']. split.
    + rewrite <- (app_nil_r t). eapply gss_cons; [exact G|constructor|reflexivity].
    + split; [|specialize (C []); now rewrite app_nil_r in C]. cbn [unplaced_block map]. now rewrite U.
Qed.
Lemma block_case ss : Forall Ps ss -> Pb (BBlock ss).
Proof.
  intros H c rest G S. cbn [readable_block] in G. destruct G as (G & R & L). cbn [block_text].
  set (sep := match c with Some _ => [x0a] | None => bs ";"%string end). set (lead := match c with Some n => tabs n | None => [x20] end).
  assert (B : forallb is_ascii_whitespace lead = true) by (destruct c; [apply tabs_blank|reflexivity]).
  induction H as [|s ss Hs H IH].
  - cbn [map sep_by]. eapply piece_weak; [now apply piece_blank|]. intros t -> nested. exists []. split; [constructor|]. split; reflexivity.
  - cbn [all_of] in G. destruct G as [Gs G]. destruct ss as [|s2 ss].
    + cbn [map sep_by]. eapply piece_weak; [eapply piece_app; [apply piece_blank, B|apply Hs; [exact Gs|exact S]]|]. unfold none. intros t Ht. unpack. tidy. now apply last_statement.
    + assert (exists n, c = Some n) as [n ->] by (destruct c; [eauto|destruct (L eq_refl)]).
      cbn [in_a_row] in R. destruct R as (N & O & R). specialize (IH G R ltac:(discriminate)). rewrite !map_cons in *. rewrite sep_by_cons.
      eapply piece_weak; [chain; [apply piece_blank, B|apply Hs; [exact Gs|reflexivity]|now apply piece_blank|exact IH]|].
      unfold none. intros t Ht. unpack. tidy. intros nested.
      match goal with H : reads_statement _ _ |- _ => destruct (one_statement _ _ H N) as (s' & ends & G' & U & M & C) end.
      match goal with H : reads_block _ _ |- _ => destruct (H nested) as (ss' & Gs' & Us & Cs) end.
      exists (s' :: ss'). split; [|split].
      * eapply gss_cons; [exact G'|exact Gs'|]. intros E. rewrite Cs. auto.
      * cbn [unplaced_block map] in *. congruence.
      * apply C.
Qed.
Lemma command_case b p : Pe (ECommand b p).
Proof.
  intros c rest G _. cbn [readable] in G. cbn [expr_text]. eapply piece_weak; [apply command_block_piece, G|]. intros t (b' & q & G' & U).
  exists (ECommand b' q). split; [apply up1, g_command; exact G'|]. split; [cbn [unplaced]; congruence|].
  intros x. destruct G' as [k kind q t1 c' r O _|k kind q t1 c' sp t2 cs r O _ _]; destruct k; try discriminate O; reflexivity.
Qed.
Lemma ill_cases : Pe EIllFormed /\ (forall s p, Pe (EFieldName s p)) /\ Ps SIllFormed /\ Pb BIllFormed.
Proof. repeat split; intros; intros c rest G; destruct G. Qed.
Lemma all_pieces : (forall e, Pe e) /\ (forall s, Ps s) /\ (forall b, Pb b).
Proof.
  destruct expr_cases as (A1 & A2 & A3), statement_cases as (B1 & B2 & B3 & B4 & B5 & B6 & B7), ill_cases as (I1 & I2 & I4 & I5).
  apply tree_ind; auto using array_case, dict_case, function_case, unary_case, binary_case, if_case, access_case, call_case, block_case, command_case.
Qed.
Lemma printed_block_read b : good_block false b ->
  exists b', analyze (block_text X fd (Some 0%N) b) = Analysis b' [] [] /\ unplaced_block b' = unplaced_block b.
Proof.
  intros G. destruct all_pieces as (_ & _ & H). destruct (H b (Some 0%N) [] G eq_refl []) as (t & R & L). specialize (L [] (ly_end _)).
  rewrite !app_nil_r in L. destruct (R false) as (ss & Gs & U & _). exists (BBlock ss). split; [|exact U].
  eapply layout_analyze; [exact L|now constructor].
Qed.
Lemma printed_tree_read path b : good_block false b -> exists text b',
  ast_text X fd path b = bs "AST for "%string ++ x_escape X path ++ x0a :: text /\ analyze text = Analysis b' [] [] /\ unplaced_block b' = unplaced_block b.
Proof.
  intros G. destruct (printed_block_read b G) as (b' & A & U). exists (block_text X fd (Some 0%N) b), b'. split; [|auto].
  unfold ast_text, symbol_text, yellow, green. rewrite !plain_paint. reflexivity.
Qed.
End Print.

(** ** Trees that are not read back *)
Definition back {W} (X : ext W) float_display (b : block) : Prop :=
  exists b', analyze (block_text X float_display (Some 0%N) b) = Analysis b' [] [] /\ unplaced_block b' = unplaced_block b.
Definition tree_of (a : analysis) : block := match a with Analysis b _ _ => b | _ => BIllFormed end.
Lemma ast_separator_refuted : exists src b,
  src = bs "(function() let a = 1 let b = 2 end)()"%string /\ analyze src = Analysis b [] [] /\
  block_text demo_ext (fun t => t) (Some 0%N) b = bs "function() let a = 1; let b = 2 end()"%string /\ ~ back demo_ext (fun t => t) b.
Proof.
  eexists. exists (tree_of (analyze (bs "(function() let a = 1 let b = 2 end)()"%string))). split; [reflexivity|]. split; [vm_compute; reflexivity|].
  split; [vm_compute; reflexivity|]. intros (b' & H & _). vm_compute in H. discriminate H.
Qed.
Lemma ast_empty_refuted : exists src b,
  src = bs "(if true then end) == nil"%string /\ analyze src = Analysis b [] [] /\
  block_text demo_ext (fun t => t) (Some 0%N) b = bs "(if true thenend == nil)"%string /\ ~ back demo_ext (fun t => t) b.
Proof.
  eexists. exists (tree_of (analyze (bs "(if true then end) == nil"%string))). split; [reflexivity|]. split; [vm_compute; reflexivity|].
  split; [vm_compute; reflexivity|]. intros (b' & H & _). vm_compute in H. discriminate H.
Qed.
Lemma ast_call_refuted : exists src b,
  src = bs "x 1 + 2"%string /\ analyze src = Analysis b [] [] /\
  block_text demo_ext (fun t => t) (Some 0%N) b = bs "x"%string ++ x0a :: bs "(1 + 2)"%string /\ ~ back demo_ext (fun t => t) b.
Proof.
  eexists. exists (tree_of (analyze (bs "x 1 + 2"%string))). split; [reflexivity|]. split; [vm_compute; reflexivity|].
  split; [vm_compute; reflexivity|]. intros (b' & H & U). vm_compute in H. injection H as <-. vm_compute in U. discriminate U.
Qed.
Lemma ast_field_refuted : exists src b,
  src = bs "(1).foo"%string /\ analyze src = Analysis b [] [] /\
  block_text demo_ext (fun t => t) (Some 0%N) b = bs "1.foo"%string /\ ~ back demo_ext (fun t => t) b.
Proof.
  eexists. exists (tree_of (analyze (bs "(1).foo"%string))). split; [reflexivity|]. split; [vm_compute; reflexivity|].
  split; [vm_compute; reflexivity|]. intros (b' & H & U). vm_compute in H. discriminate H.
Qed.
Lemma ast_float_refuted : exists src b, src = bs "1.0"%string /\ analyze src = Analysis b [] [] /\
  forall float_display, float_display (bs "1.0"%string) = bs "1"%string -> ~ back demo_ext float_display b.
Proof.
  eexists. exists (tree_of (analyze (bs "1.0"%string))). split; [reflexivity|]. split; [vm_compute; reflexivity|].
  intros fd F (b' & H & U).
  assert (T : block_text demo_ext fd (Some 0%N) (tree_of (analyze (bs "1.0"%string))) = bs "1"%string).
  { replace (tree_of (analyze (bs "1.0"%string))) with (BBlock [SExpr (ELit (LFloat (bs "1.0"%string)) (mkpos 1 0))]) by (vm_compute; reflexivity).
    cbn [block_text statement_text expr_text literal_text map sep_by]. rewrite F. reflexivity. }
  rewrite T in H. vm_compute in H. injection H as <-. vm_compute in U. discriminate U.
Qed.
Lemma ast_expansion_refuted : exists src b,
  src = bs "{ ls * }"%string /\ analyze src = Analysis b [] [] /\ ~ back demo_ext (fun t => t) b.
Proof.
  eexists. exists (tree_of (analyze (bs "{ ls * }"%string))). split; [reflexivity|]. split; [vm_compute; reflexivity|].
  intros (b' & H & U). vm_compute in H. injection H as <-. vm_compute in U. discriminate U.
Qed.
Lemma ast_dollar_refuted : exists src b,
  src = bs "{ ls '$a' }"%string /\ analyze src = Analysis b [] [] /\ ~ back demo_ext (fun t => t) b.
Proof.
  eexists. exists (tree_of (analyze (bs "{ ls '$a' }"%string))). split; [reflexivity|]. split; [vm_compute; reflexivity|].
  intros (b' & H & U). vm_compute in H. injection H as <-. vm_compute in U. discriminate U.
Qed.
