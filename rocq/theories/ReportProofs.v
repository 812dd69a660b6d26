(** Proofs about the texts of static errors and of lexemes. *)
From Coq Require Import Strings.String Lia.
From Verif Require Import Base Lexer Ast Parser Program Sema Value Text StdLib Json Exec Runtime Demo SpecLexer SpecText SpecJson SpecShow
  Report SpecReport LexerFactsProofs Utf8Proofs ShowProofs ParserMarkProofs.

Lemma fixed_at i w k : nth_error fixed_texts i = Some (w, k) -> In (w, k) fixed_texts.
Proof. apply nth_error_In. Qed.
Ltac listed_from i n := match n with S ?n => first [apply (fixed_at i); reflexivity|listed_from (S i) n] end.
Ltac listed := listed_from 0 60.

Section Report.
Context {W : Type}.
Variable X : ext W.
Variable fd : bytes -> bytes.

Lemma char_utf8 c : char_text c = utf8 (Byte.to_N c).
Proof. destruct c; vm_compute; reflexivity. Qed.
Lemma emphasized_bold t : emphasized X t (bold X t).
Proof. unfold bold. destruct (x_tty X) eqn:E; [now apply em_bold|now apply em_plain]. Qed.
Lemma tinted_paint' c t : tinted X c t (paint X c t).
Proof. now apply tinted_paint. Qed.

Lemma unit_text_named u : unit_named X u (arg_unit_text X u).
Proof. destruct u as [s|s p]; constructor. apply tinted_paint'. Qed.
Lemma part_text_named p : part_named X p (arg_part_text X p).
Proof.
  destruct p as [u|s|us|e|]; cbn.
  - constructor. apply unit_text_named.
  - constructor.
  - constructor. induction us; cbn; constructor; auto using unit_text_named.
  - destruct e; constructor; apply tinted_paint'.
  - constructor. apply tinted_paint'.
Qed.
Ltac fixed_plain w := apply (na_fixed X fd _ (bs w)); [listed|reflexivity].
Ltac fixed w := eapply (na_color X fd _ (bs w)); [listed|reflexivity|apply tinted_paint'].
Lemma token_named k : named X fd k (token_kind_text X fd k).
Proof.
  destruct k as [s|k|o|l| | | | | | | | | | | |ps|o| |]; cbn [token_kind_text].
  - apply na_identifier. apply tinted_paint'.
  - unfold keyword_text, blue.
    destruct k; match goal with |- context [paint X _ (bs ?w)] => fixed w end.
  - destruct o; cbn [operator_text]; unfold yellow, blue; try match goal with |- context [paint X _ (bs ?w)] => fixed w end. fixed_plain "="%string.
  - destruct l as [| | |z|t|c|s]; cbn [literal_text]; unfold blue; try match goal with |- context [paint X _ (bs ?w)] => fixed w end.
    + apply na_int, int_text_integer.
    + apply na_float.
    + rewrite char_utf8. apply na_byte, emphasized_bold.
    + apply na_string, emphasized_bold.
  - fixed_plain ":"%string.
  - fixed_plain ","%string.
  - fixed_plain "("%string.
  - fixed_plain ")"%string.
  - fixed_plain "["%string.
  - fixed_plain "@["%string.
  - fixed_plain "]"%string.
  - fixed_plain "{"%string.
  - fixed_plain "&{"%string.
  - fixed_plain "${"%string.
  - fixed_plain "}"%string.
  - apply na_argument. induction ps; cbn; constructor; auto using part_text_named.
  - unfold command_operator_text, yellow. destruct o as [[]|[]|]; match goal with |- context [paint X _ (bs ?w)] => fixed w end.
  - fixed_plain ";"%string.
  - unfold yellow. fixed "|"%string.
Qed.

Variable path : bytes.
Lemma place_placed p : placed X (mkspos path p) (place X path p).
Proof. now apply placed_text. Qed.
Lemma complaint_text k : lexer_complaint X k (lex_error_kind_text X k).
Proof.
  destruct k; cbn [lex_error_kind_text lexer_complaint]; rewrite ?char_utf8; try reflexivity; eexists; split; try reflexivity; apply lossy_repaired.
Qed.
Lemma wanted_text e : wanted X fd e (expected_text X fd e).
Proof. destruct e; cbn; [|reflexivity]. eexists. split; [apply token_named|reflexivity]. Qed.
Lemma syntax_text e : e <> SynParser PInvalidEnvAssign -> syntax_complaint X fd path e (syntax_error_text X fd path e).
Proof.
  destruct e as [[k p]|[|[k p] e|p|]]; cbn -[bs app]; intros N.
  - constructor; [apply place_placed|apply complaint_text].
  - constructor.
  - constructor; [apply place_placed|apply token_named|apply wanted_text].
  - constructor. apply place_placed.
  - congruence.
Qed.
Lemma semantic_text k : semantic_message X k (serror_kind_text X k).
Proof. destruct k; cbn [serror_kind_text]; constructor; apply tinted_paint'. Qed.

(** ** Reports *)
Definition lines_of {E} (line : E -> bytes) (es : list E) : bytes := concat (map (fun e => line e ++ [x0a]) es).
Lemma errors_text_lines {E} (line : E -> bytes) more max es : forall ix,
  errors_text X line more max ix es = lines_of line (firstn (max - ix) es) ++
    (if length es <=? max - ix then [] else red X (digits_of (N.of_nat max)) ++ bs " " ++ red X more ++ [x0a]).
Proof.
  induction es as [|e es IH]; intros ix; cbn [errors_text].
  - now destruct (max - ix).
  - destruct (max <=? ix) eqn:L.
    + apply Nat.leb_le in L. replace (max - ix) with 0 by lia. reflexivity.
    + apply Nat.leb_gt in L. rewrite IH. replace (max - ix) with (S (max - S ix)) by lia. cbn [firstn length Nat.leb].
      unfold lines_of. cbn [map concat]. now rewrite !app_assoc.
Qed.
Lemma lines_forall {E} (complaint : E -> bytes -> Prop) (line t : E -> bytes) es :
  (forall e, line e = red X (bs "Error") ++ bs ": " ++ t e) -> Forall (fun e => complaint e (t e)) es ->
  exists lines, Forall2 (line_of X complaint) es lines /\ lines_of line es = concat lines.
Proof.
  intros L F. exists (map (fun e => line e ++ [x0a]) es). split; [|reflexivity].
  induction F as [|e es C _ IH]; constructor; [|exact IH]. exists (red X (bs "Error")), (t e). split; [apply tinted_paint'|].
  split; [exact C|]. rewrite L, <- !app_assoc. reflexivity.
Qed.
Lemma report_lines {E} (complaint : E -> bytes -> Prop) (line t : E -> bytes) what es :
  (forall e, line e = red X (bs "Error") ++ bs ": " ++ t e) -> Forall (fun e => complaint e (t e)) es ->
  exists lines last, Forall2 (line_of X complaint) (firstn 20 es) lines /\ errors_text X line what 20 0 es = concat lines ++ last /\
    if length es <=? 20 then last = [] else rest_line X what 20 last.
Proof.
  intros L F. assert (F20 : Forall (fun e => complaint e (t e)) (firstn 20 es)).
  { rewrite Forall_forall in *. intros x Hx. apply F. rewrite <- (firstn_skipn 20 es). apply in_or_app. now left. }
  destruct (lines_forall complaint line t _ L F20) as (lines & F2 & E2).
  rewrite errors_text_lines. change (20 - 0) with 20. rewrite E2. exists lines. eexists. split; [exact F2|]. split; [reflexivity|].
  destruct (length es <=? 20); [reflexivity|]. eexists _, _, _. split; [apply digits_numeral|]. split; [apply tinted_paint'|].
  split; [apply tinted_paint'|]. reflexivity.
Qed.
End Report.

Lemma syntax_no_internal src b les pes : analyze src = Analysis b les pes ->
  Forall (fun e => e <> SynParser PInvalidEnvAssign) (syntax_errors src).
Proof.
  intros A. destruct (analysis_errors _ _ _ _ A) as (P & _ & _ & B & _). rewrite <- P in B. clear A P. revert B. generalize (tokens_of (outputs (Lexer.lex src))) as ts. intros ts.
  generalize (syntax_errors src) as l. induction l as [|[e|e] es IH]; intros B; constructor; try discriminate; cbn in B.
  - now apply IH.
  - inversion B; subst. intros Q. injection Q as ->. contradiction.
  - apply IH. now inversion B.
Qed.

Lemma syntax_report_lines {W} (X : ext W) fd path src b les pes : analyze src = Analysis b les pes ->
  exists lines last, Forall2 (line_of X (syntax_complaint X fd path)) (firstn 20 (syntax_errors src)) lines /\
    syntax_report X fd path (syntax_errors src) = concat lines ++ last /\
    if length (syntax_errors src) <=? 20 then last = [] else rest_line X (bs "more supressed syntax errors") 20 last.
Proof.
  intros A. apply (report_lines X _ _ (syntax_error_text X fd path)); [reflexivity|].
  eapply Forall_impl; [|eapply syntax_no_internal; eassumption]. intros e. apply syntax_text.
Qed.
Lemma semantic_report_lines {W} (X : ext W) path es :
  exists lines last, Forall2 (line_of X (semantic_complaint X path)) (firstn 20 es) lines /\
    semantic_report X path es = concat lines ++ last /\
    if length es <=? 20 then last = [] else rest_line X (bs "more supressed semantic errors") 20 last.
Proof.
  apply (report_lines X _ _ (fun e => place X path (se_pos e) ++ bs " - " ++ serror_kind_text X (se_kind e))); [reflexivity|].
  apply Forall_forall. intros e _. eexists _, _. split; [apply place_placed|]. split; [apply semantic_text|reflexivity].
Qed.
Lemma lexemes_lines {W} (X : ext W) fd path os :
  exists rule lines, tinted X (bs "3") (repeat x2d 50) rule /\ Forall2 (lexeme_line X fd path) os lines /\
    lexemes_text X fd path os = rule ++ [NL] ++ concat lines ++ rule ++ [NL].
Proof.
  exists (yellow X (bs "--------------------------------------------------")), (map (lexeme_text X fd path) os).
  split; [apply tinted_paint; reflexivity|]. split; [|unfold lexemes_text, rule; now rewrite <- !app_assoc].
  induction os as [|o os IH]; constructor; [|exact IH]. destruct o as [t|e]; cbn [lexeme_line lexeme_text].
  - eexists _, _. split; [apply place_placed|]. split; [apply token_named|reflexivity].
  - eexists _, _, _, _. split; [apply tinted_paint; reflexivity|]. split; [apply digits_numeral|]. split; [apply digits_numeral|].
    split; [apply complaint_text|]. unfold lex_error_plain. rewrite <- !app_assoc. reflexivity.
Qed.

(** ** Tokens are named as they are written *)
Lemma digits_of_digits x : all_digits (digits_of x) /\ decimal_value (digits_of x) = Z.of_N x.
Proof.
  pose proof (digits_numeral x) as N. induction N as [d D|x d t Z D N [[I1 I2] I3]].
  - split; [split; [discriminate|]|].
    + constructor; [|constructor]. destruct d as [|p]; [reflexivity|]. do 4 (destruct p as [p|p|]; try reflexivity; try lia).
    + destruct d as [|p]; [reflexivity|]. do 4 (destruct p as [p|p|]; try reflexivity; try lia).
  - split; [split|].
    + destruct t; discriminate.
    + apply Forall_app. split; [exact I2|]. constructor; [|constructor]. destruct d as [|p]; [reflexivity|]. do 4 (destruct p as [p|p|]; try reflexivity; try lia).
    + unfold decimal_value in *. rewrite rev_app_distr. cbn [rev app value_rev]. rewrite I3.
      assert (Z.of_N (Byte.to_N (SpecShow.digit d)) = 48 + Z.of_N d)%Z.
      { destruct d as [|p]; [reflexivity|]. do 4 (destruct p as [p|p|]; try reflexivity; try lia). }
      lia.
Qed.
Lemma named_written {W} (X : ext W) fd k : x_tty X = false -> as_written k -> 
  (forall s, k = TIdentifier s -> x_escape X s = s) -> written_as k (token_kind_text X fd k).
Proof.
  intros T K I. destruct k as [s|k|o|l| | | | | | | | | | | |ps|o| |]; cbn [token_kind_text written_as]; try contradiction;
    unfold symbol_text, keyword_text, command_operator_text, green, yellow, blue, paint; rewrite ?T; try (solve [listed]).
  - now apply I.
  - destruct k; listed.
  - destruct o; unfold operator_text, yellow, blue, paint; rewrite ?T; listed.
  - destruct l as [| | |z|t|c|s]; cbn [as_written] in K; try contradiction; cbn [literal_text]; unfold blue, paint; rewrite ?T; try (solve [listed]).
    unfold int_text. destruct (z <? 0)%Z eqn:L; [apply Z.ltb_lt in L; lia|]. destruct (digits_of_digits (Z.to_N z)) as [D V].
    split; [exact D|]. split; [rewrite V; apply Z2N.id; lia|lia].
  - destruct o as [[]|[]|]; listed.
Qed.

Lemma token_somewhere src t : In t (tokens_of (outputs (Lexer.lex src))) ->
  exists a text b, src = a ++ text ++ b /\ written_as (tk_kind t) text /\ tk_pos t = position_of a.
Proof.
  pose proof (placed_outputs src) as P. revert P. generalize (outputs (Lexer.lex src)) as os. intros os P I.
  change src with ([] ++ src). revert P I. generalize (@nil byte) as pre. intros pre P. induction P as [|pre gap text rest t0 os N Wr Ps P IH|pre rest a b e os Q Ps P IH]; intros I.
  - destruct I.
  - cbn [tokens_of] in I. destruct I as [<-|I].
    + exists (pre ++ gap), text, rest. rewrite <- app_assoc. auto.
    + destruct (IH I) as (a & tx & b & E & H). exists a, tx, b. split; [|exact H]. rewrite <- E, <- !app_assoc. reflexivity.
  - apply IH. exact I.
Qed.
Lemma error_somewhere src e : In (ErrTok e) (outputs (Lexer.lex src)) -> exists a b, src = a ++ b /\ le_pos e = position_of a.
Proof.
  pose proof (placed_outputs src) as P. revert P. generalize (outputs (Lexer.lex src)) as os. intros os P I.
  change src with ([] ++ src). revert P I. generalize (@nil byte) as pre. intros pre P. induction P as [|pre gap text rest t0 os N Wr Ps P IH|pre rest a b e0 os Q Ps P IH]; intros I.
  - destruct I.
  - destruct I as [D|I]; [discriminate|]. destruct (IH I) as (a & b & E & H). exists a, b. split; [|exact H]. rewrite <- E, <- !app_assoc. reflexivity.
  - destruct I as [D|I]; [injection D as <-; eauto|]. now apply IH.
Qed.
Lemma fixed_texts_shown {W} (X : ext W) fd : x_tty X = false ->
  Forall (fun wk => token_kind_text X fd (snd wk) = fst wk) fixed_texts.
Proof. intros T. unfold fixed_texts. repeat (constructor; [cbn [fst snd token_kind_text]; unfold keyword_text, operator_text, command_operator_text, literal_text, blue, yellow, paint; rewrite ?T; reflexivity|]). constructor. Qed.

(** A token with a fixed text or a name is named as it is written in the source. *)
Lemma named_in_source {W} (X : ext W) fd src t : x_tty X = false -> In t (tokens_of (outputs (Lexer.lex src))) -> as_written (tk_kind t) ->
  (forall z, tk_kind t <> TLiteral (LInt z)) -> (forall s, tk_kind t = TIdentifier s -> x_escape X s = s) ->
  exists a b, src = a ++ token_kind_text X fd (tk_kind t) ++ b /\ tk_pos t = position_of a.
Proof.
  intros T I K Z S. destruct (token_somewhere _ _ I) as (a & text & b & E & Wr & P). exists a, b. split; [|exact P].
  replace (token_kind_text X fd (tk_kind t)) with text; [exact E|].
  pose proof (fixed_texts_shown X fd T) as F. rewrite Forall_forall in F.
  destruct (tk_kind t) as [s|k|o|l| | | | | | | | | | | |ps|o| |] eqn:Q; cbn [written_as as_written] in *; try contradiction;
    try (symmetry; exact (F _ Wr)).
  - subst text. cbn [token_kind_text]. unfold symbol_text, green, paint. rewrite T. symmetry. now apply S.
  - destruct l as [| | |z|x|c|x]; try contradiction; try (symmetry; exact (F _ Wr)). exfalso. now apply (Z z).
Qed.

(** ** Places of errors *)
Lemma analysis_failures src b les pes : analyze src = Analysis b les pes -> les = failures (outputs (Lexer.lex src)).
Proof.
  unfold analyze. generalize (Lexer.lex src) as l. intros [os|os|]; [| |discriminate]; destruct (parse_tokens (tokens_of os)) as [b0 es r|]; try discriminate; [|destruct r; [discriminate|]];
    intros Q; injection Q as _ <- _; reflexivity.
Qed.
Lemma failure_in e os : In e (failures os) -> In (ErrTok e) os.
Proof. intros I. apply in_flat_map in I as ([t|e'] & I1 & I2); [destruct I2|]. destruct I2 as [->|[]]. exact I1. Qed.
Lemma in_lexer_errors e es : In (SynLexer e) es -> In e (lexer_errors es).
Proof. intros I. apply in_flat_map. eexists. split; [exact I|now left]. Qed.
Lemma in_parser_errors e es : In (SynParser e) es -> In e (parser_errors es).
Proof. intros I. apply in_flat_map. eexists. split; [exact I|now left]. Qed.
Lemma syntax_error_placed {W} (X : ext W) fd path src b les pes e : analyze src = Analysis b les pes ->
  In e (syntax_errors src) -> e <> SynParser PUnexpectedEof ->
  exists before after place text, src = before ++ after /\ placed X (mkspos path (position_of before)) place /\
    syntax_error_text X fd path e = place ++ bs " - " ++ text.
Proof.
  intros A I N. destruct (analysis_errors _ _ _ _ A) as (P & [more L] & _ & B & _). destruct e as [e|e].
  - apply in_lexer_errors in I. assert (In e les) as I' by (rewrite L; apply in_or_app; now left). rewrite (analysis_failures _ _ _ _ A) in I'.
    destruct (error_somewhere _ _ (failure_in _ _ I')) as (a & b0 & E & Q). exists a, b0. eexists _, _. split; [exact E|]. rewrite <- Q. split; [apply place_placed|]. reflexivity.
  - apply in_parser_errors in I. rewrite P in I. rewrite Forall_forall in B. specialize (B _ I).
    destruct e as [|t x|p|]; cbn [about] in B; [congruence| | |contradiction].
    + destruct (token_somewhere _ _ B) as (a & tx & b0 & E & _ & Q). exists a, (tx ++ b0). eexists _, (bs "unexpected '" ++ token_kind_text X fd (tk_kind t) ++ bs "', expected " ++ expected_text X fd x).
      split; [exact E|]. rewrite <- Q. split; [apply place_placed|]. reflexivity.
    + destruct (token_somewhere _ _ B) as (a & tx & b0 & E & _ & Q). exists a, (tx ++ b0). eexists _, _.
      split; [exact E|]. rewrite <- Q. split; [apply place_placed|]. reflexivity.
Qed.

(** ** Lines *)
Lemma numeral_no_nl x t : numeral x t -> ~ In NL t.
Proof.
  assert (D : forall d, (d < 10)%N -> SpecShow.digit d <> NL).
  { intros d L. destruct d as [|p]; [discriminate|]. do 4 (destruct p as [p|p|]; try discriminate; try lia). }
  induction 1 as [d L|x d t Z L _ IH]; intros I.
  - destruct I as [I|[]]. exact (D _ L I).
  - apply in_app_or in I as [I|[I|[]]]; [now apply IH|exact (D _ L I)].
Qed.
Lemma tinted_no_nl {W} (X : ext W) c t t' : tinted X c t t' -> ~ In NL c -> ~ In NL t -> ~ In NL t'.
Proof.
  intros [T|T] C H; [exact H|]. rewrite !in_app_iff. intros [I|[I|[I|[I|[I|[I|I]]]]]]; try contradiction; vm_compute in I; intuition discriminate.
Qed.
Lemma placed_no_nl {W} (X : ext W) path p t : (forall s, ~ In NL (x_escape X s)) -> placed X (mkspos path p) t -> ~ In NL t.
Proof.
  intros Q H. inversion H as [a l c path' l' c' H1 H2 H3]; subst. apply numeral_no_nl in H2, H3. apply tinted_no_nl in H1; [|vm_compute; intuition discriminate|apply Q].
  rewrite !in_app_iff. intros [I|[I|[I|[I|[I|I]]]]]; try contradiction; vm_compute in I; intuition discriminate.
Qed.
Lemma semantic_one_line {W} (X : ext W) path e l : (forall s, ~ In NL (x_escape X s)) ->
  line_of X (semantic_complaint X path) e l -> one_line l.
Proof.
  intros Q (head & t & H & (q & u & P & M & ->) & ->). exists (head ++ bs ": " ++ q ++ bs " - " ++ u).
  split; [rewrite <- !app_assoc; reflexivity|]. apply placed_no_nl in P; [|exact Q]. apply tinted_no_nl in H; [|vm_compute; intuition discriminate|vm_compute; intuition discriminate].
  assert (U : ~ In NL u).
  { destruct M as [s t H0|s t H0|s t H0| | | | | |]; try (vm_compute; intuition discriminate);
      (apply tinted_no_nl in H0; [|vm_compute; intuition discriminate|apply Q]);
      rewrite !in_app_iff; intros [I|[I|I]]; try contradiction; vm_compute in I; intuition discriminate. }
  rewrite !in_app_iff. intros [I|[I|[I|[I|I]]]]; try contradiction; vm_compute in I; intuition discriminate.
Qed.

(** ** Refutations *)
Lemma eof_no_place : exists src e, In e (syntax_errors src) /\
  forall W (X : ext W) fd path, ~ exists p place text, placed X (mkspos path p) place /\
      syntax_error_text X fd path e = place ++ bs " - " ++ text.
Proof.
  exists (bs "("), (SynParser PUnexpectedEof). split; [vm_compute; auto|]. intros W X fd path (p & q & t & P & E).
  assert (I : In x28 q). { inversion P; subst. rewrite !in_app_iff. right. left. vm_compute. auto. }
  assert (I' : In x28 (syntax_error_text X fd path (SynParser PUnexpectedEof))) by (rewrite E; apply in_or_app; now left).
  vm_compute in I'. intuition discriminate.
Qed.

(** A backslash before the end of the line: the end of the line is in the message as it is. *)
Lemma two_lines : exists src e, syntax_errors src = [e] /\
  forall W (X : ext W) fd path, In NL (syntax_error_text X fd path e).
Proof.
  exists [x22; x5c; x0a; x22]. eexists. split; [vm_compute; reflexivity|]. intros W X fd path. cbn [syntax_error_text]. unfold lex_error_text. rewrite !in_app_iff. right. right. left.
  cbn [le_kind lex_error_kind_text]. rewrite !in_app_iff. right. left. vm_compute. auto.
Qed.
Lemma break_line : line_of demo_ext (semantic_complaint demo_ext (bs "f")) (mkserror BreakOutsideLoop (mkpos 1 0))
    (bs "Error: f (line 1, column 0) - break statement outside loop" ++ [NL]).
Proof.
  exists (bs "Error"), (bs "f (line 1, column 0)" ++ bs " - " ++ bs "break statement outside loop"). split; [apply ti_plain; reflexivity|]. split; [|reflexivity].
  eexists _, _. split; [|split; [apply sm_break|reflexivity]]. apply placed_text. vm_compute. reflexivity.
Qed.
Lemma dollar_shown : exists src t, In t (tokens_of (outputs (Lexer.lex src))) /\
  ~ exists a b, src = a ++ token_kind_text demo_ext (fun t => t) (tk_kind t) ++ b.
Proof.
  exists (bs "{ a $x }"), (mktoken (TArgument [PUnquoted (AUDollar (bs "x") (mkpos 1 4))]) (mkpos 1 4)). split; [vm_compute; auto|].
  intros (a & b & E). change (token_kind_text demo_ext (fun t => t) _) with (bs "${{x}}") in E. apply (f_equal (fun l => count_occ Byte.byte_eq_dec l x7b)) in E.
  rewrite !count_occ_app in E. change (count_occ Byte.byte_eq_dec (bs "{ a $x }") x7b) with 1 in E. change (count_occ Byte.byte_eq_dec (bs "${{x}}") x7b) with 2 in E. lia.
Qed.
Lemma numeral_last x t : numeral x t -> exists t' d, t = t' ++ [SpecShow.digit d] /\ (d < 10)%N /\ (x mod 10)%N = d.
Proof.
  intros [d L|y d t' Z L N].
  - exists [], d. split; [reflexivity|]. split; [exact L|]. now apply N.mod_small.
  - exists t', d. split; [reflexivity|]. split; [exact L|]. rewrite N.mul_comm, N.add_comm, N.mod_add by lia. now apply N.mod_small.
Qed.

(** Twenty-one bytes which are not allowed: one error is not shown, but the last line says twenty. *)
Definition many_errors : bytes := repeat x5c 21.
Lemma number_20 {W} (X : ext W) fd path es : x_tty X = false -> length es = 21 ->
  ~ report_of X (syntax_complaint X fd path) (bs "more supressed syntax errors") es (syntax_report X fd path es).
Proof.
  intros T L (lines & last & _ & E & R). rewrite L in R. destruct R as (m & a & b & N & A & B & ->). change (21 - 20) with 1 in N.
  unfold syntax_report in E. rewrite errors_text_lines in E. change (20 - 0) with 20 in E. rewrite L in E. change (21 <=? 20) with false in E. cbv iota in E.
  inversion A; [|congruence]; subst a. inversion B; [|congruence]; subst b. unfold red, paint in E. rewrite T in E.
  destruct (numeral_last _ _ N) as (m' & d & -> & D & M). change (N.of_nat 1 mod 10)%N with 1%N in M. subst d.
  unfold NL in E. revert E. generalize (lines_of (fun e => bs "Error" ++ bs ": " ++ syntax_error_text X fd path e) (firstn 20 es)) as front.
  generalize (bs " " ++ bs "more supressed syntax errors" ++ [x0a]) as tail. intros tail front. generalize (concat lines) as c. intros c E.
  change (digits_of (N.of_nat 20)) with ([x32] ++ [x30]) in E. change (SpecShow.digit 1) with x31 in E.
  replace (front ++ ([x32] ++ [x30]) ++ tail) with (((front ++ [x32]) ++ [x30]) ++ tail) in E by (rewrite <- !app_assoc; reflexivity).
  replace (c ++ (m' ++ [x31]) ++ tail) with (((c ++ m') ++ [x31]) ++ tail) in E by (rewrite <- !app_assoc; reflexivity).
  apply app_inv_tail in E. apply app_inj_tail in E as [_ E]. discriminate.
Qed.
Lemma many_counted : length (syntax_errors many_errors) = 21.
Proof. vm_compute. reflexivity. Qed.
Lemma many_analyzed : match analyze many_errors with Analysis _ _ _ => True | _ => False end.
Proof. vm_compute. exact I. Qed.
Lemma number_wrong {W} (X : ext W) fd path : x_tty X = false ->
  exists src b les pes, analyze src = Analysis b les pes /\ length (syntax_errors src) = 21 /\
  ~ report_of X (syntax_complaint X fd path) (bs "more supressed syntax errors") (syntax_errors src)
      (syntax_report X fd path (syntax_errors src)).
Proof.
  intros T. exists many_errors. pose proof many_counted as L. pose proof many_analyzed as A. revert L A. generalize many_errors as src. intros src L A.
  destruct (analyze src) as [b les pes| |]; try contradiction. exists b, les, pes. split; [reflexivity|]. split; [exact L|]. now apply number_20.
Qed.
