(** Properties of the reports of static errors and of the listing of lexemes: C78, C79, C80, C81. *)
From Coq Require Import Strings.String.
From Verif Require Import Base Ast Program Sema Value Text StdLib Exec Runtime Demo Main Parser SpecLexer SpecShow SpecMain
  Report SpecReport ParserMarkProofs ReportProofs MainProofs Lexer.

(** C78.  The errors of the analysis of a text: all errors of the parser, and those of the lexer up to
    where the parser gave up (all, if the parser had no error), in the order of the text. *)
Theorem C78_order : forall src b les pes, analyze src = Analysis b les pes ->
  parser_errors (syntax_errors src) = pes /\
  (exists more, les = lexer_errors (syntax_errors src) ++ more) /\
  (pes = [] -> lexer_errors (syntax_errors src) = les) /\
  Forall (about (tokens_of (outputs (Lexer.lex src)))) pes /\
  in_source_order (outputs (Lexer.lex src)) (syntax_errors src).
Proof. exact analysis_errors. Qed.
Print Assumptions C78_order.

Theorem C78_none : forall src b les pes, analyze src = Analysis b les pes ->
  (syntax_errors src = [] <-> les = [] /\ pes = []).
Proof. exact no_errors_iff. Qed.
Print Assumptions C78_none.

(** An error of the lexer, one of the parser, and one of the lexer *)
Example C78_order_case :
  let x p := SynLexer (mkerror (Unexpected x5c) p) in
  syntax_errors (bs "\ let = 1 \"%string) =
    [x (mkpos 1 0); SynParser (PUnexpected (mktoken (TOperator OAssign) (mkpos 1 6)) (ExpMsg (bs "identifier"%string))); x (mkpos 1 10)].
Proof. vm_compute. reflexivity. Qed.

(** They are shown, and so are the errors of the semantic analysis. *)
Theorem C78_syntax_shown : forall {W} (X : ext W) (O : os W) read_source n is_file m o w text w' b les pes,
  parse_args is_file (ClapMatches m) = Some (CmdRun o) -> read_source (o_script o) w = (inr text, w') ->
  analyze text = Analysis b les pes ->
  let out := snd (fst (hush X O read_source n is_file (ClapMatches m) w)) in
  (forall es, In (ShSyntaxErrors es) out <-> es = syntax_errors text /\ es <> []).
Proof. exact @syntax_shown. Qed.
Print Assumptions C78_syntax_shown.

Theorem C78_semantic_shown : forall {W} (X : ext W) (O : os W) read_source n is_file m o w text w' b les pes es,
  parse_args is_file (ClapMatches m) = Some (CmdRun o) -> read_source (o_script o) w = (inr text, w') ->
  analyze text = Analysis b les pes -> sema b = SemaErrors es ->
  (o_lex o = true -> forall os, Lexer.lex text <> LexCrash os) ->
  In (ShSemanticErrors es) (snd (fst (hush X O read_source n is_file (ClapMatches m) w))).
Proof. exact @semantic_shown. Qed.
Print Assumptions C78_semantic_shown.

(** The report is [report_of] when there are at most twenty errors.  When there are more it has a last
    line, but the number in that line is twenty and not the number of errors left out. *)
Theorem C78_syntax_partial : forall {W} (X : ext W) fd path src b les pes, analyze src = Analysis b les pes ->
  exists lines last, Forall2 (line_of X (syntax_complaint X fd path)) (firstn 20 (syntax_errors src)) lines /\
    syntax_report X fd path (syntax_errors src) = concat lines ++ last /\
    if length (syntax_errors src) <=? 20 then last = [] else rest_line X (bs "more supressed syntax errors"%string) 20 last.
Proof. exact @syntax_report_lines. Qed.
Print Assumptions C78_syntax_partial.

Theorem C78_semantic_partial : forall {W} (X : ext W) path es,
  exists lines last, Forall2 (line_of X (semantic_complaint X path)) (firstn 20 es) lines /\
    semantic_report X path es = concat lines ++ last /\
    if length es <=? 20 then last = [] else rest_line X (bs "more supressed semantic errors"%string) 20 last.
Proof. exact @semantic_report_lines. Qed.
Print Assumptions C78_semantic_partial.

Example C78_syntax_case :
  syntax_report demo_ext (fun t => t) (bs "f"%string) (syntax_errors (bs "\ let = 1"%string)) =
    bs "Error: f (line 1, column 0) - unexpected '\'."%string ++ [x0a] ++
    bs "Error: f (line 1, column 6) - unexpected '=', expected identifier"%string ++ [x0a].
Proof. vm_compute. reflexivity. Qed.

Example C78_semantic_case :
  (match analyze (bs "x = self"%string) with
   | Analysis b _ _ => match sema b with SemaErrors es => Some (semantic_report demo_ext (bs "f"%string) es) | _ => None end
   | _ => None
   end) =
  Some (bs "Error: f (line 1, column 0) - undeclared variable 'x'"%string ++ [x0a] ++
        bs "Error: f (line 1, column 4) - self keyword outside function"%string ++ [x0a]).
Proof. vm_compute. reflexivity. Qed.

(** The whole claim would be [report_of], which is false. *)
Theorem C78_number_refuted : exists W (X : ext W) fd path src b les pes,
  analyze src = Analysis b les pes /\ length (syntax_errors src) = 21 /\
  ~ report_of X (syntax_complaint X fd path) (bs "more supressed syntax errors"%string) (syntax_errors src)
      (syntax_report X fd path (syntax_errors src)).
Proof. exact (ex_intro _ _ (ex_intro _ demo_ext (ex_intro _ (fun t => t) (ex_intro _ [] (number_wrong demo_ext (fun t => t) [] eq_refl))))). Qed.
Print Assumptions C78_number_refuted.

(** C79.  The line of an error begins with its place, which is a place of the source ... *)
Theorem C79_place_partial : forall {W} (X : ext W) fd path src b les pes e, analyze src = Analysis b les pes ->
  In e (syntax_errors src) -> e <> SynParser PUnexpectedEof ->
  exists before after place text, src = before ++ after /\ placed X (mkspos path (position_of before)) place /\
    syntax_error_text X fd path e = place ++ bs " - "%string ++ text.
Proof. exact @syntax_error_placed. Qed.
Print Assumptions C79_place_partial.

Example C79_place_case : exists e,
  syntax_errors (bs "let a
  = )"%string) = [e] /\
  syntax_error_text demo_ext (fun t => t) (bs "f"%string) e = bs "f (line 2, column 4) - unexpected ')', expected expression"%string.
Proof. eexists. split; vm_compute; reflexivity. Qed.

(** ... but not when the text ends too early. *)
Theorem C79_end_refuted : exists src e, In e (syntax_errors src) /\
  forall W (X : ext W) fd path, ~ exists p place text, placed X (mkspos path p) place /\
      syntax_error_text X fd path e = place ++ bs " - "%string ++ text.
Proof. exact eof_no_place. Qed.
Print Assumptions C79_end_refuted.

(** It is one line, for the errors of the semantic analysis, if the escaped texts are. *)
Theorem C79_line_partial : forall {W} (X : ext W) path e l, (forall s, ~ In NL (x_escape X s)) ->
  line_of X (semantic_complaint X path) e l -> one_line l.
Proof. exact @semantic_one_line. Qed.
Print Assumptions C79_line_partial.

Example C79_line_case :
  line_of demo_ext (semantic_complaint demo_ext (bs "f"%string)) (mkserror BreakOutsideLoop (mkpos 1 0))
    (bs "Error: f (line 1, column 0) - break statement outside loop"%string ++ [NL]).
Proof. exact break_line. Qed.

(** The errors of the lexer may hold ends of lines of the source. *)
Theorem C79_line_refuted : exists src e, syntax_errors src = [e] /\
  forall W (X : ext W) fd path, In NL (syntax_error_text X fd path e).
Proof. exact two_lines. Qed.
Print Assumptions C79_line_refuted.

(** C80.  Words, symbols and names are shown in messages as they are written in the source ... *)
Theorem C80_words_partial : forall {W} (X : ext W) fd src t, x_tty X = false ->
  In t (tokens_of (outputs (Lexer.lex src))) -> as_written (tk_kind t) ->
  (forall z, tk_kind t <> TLiteral (LInt z)) -> (forall s, tk_kind t = TIdentifier s -> x_escape X s = s) ->
  exists a b, src = a ++ token_kind_text X fd (tk_kind t) ++ b /\ tk_pos t = position_of a.
Proof. exact @named_in_source. Qed.
Print Assumptions C80_words_partial.

Example C80_words_case : exists t ts,
  tokens_of (outputs (Lexer.lex (bs "ab >= 1"%string))) = ts ++ [t; mktoken (TLiteral (LInt 1)) (mkpos 1 6)] /\
  token_kind_text demo_ext (fun t => t) (tk_kind t) = bs ">="%string /\ tk_pos t = position_of (bs "ab "%string).
Proof. eexists _, [_]. repeat split; vm_compute; reflexivity. Qed.

(** ... and numbers so that the text is read as the same number ... *)
Theorem C80_numbers_partial : forall {W} (X : ext W) fd k, x_tty X = false -> as_written k ->
  (forall s, k = TIdentifier s -> x_escape X s = s) -> written_as k (token_kind_text X fd k).
Proof. exact @named_written. Qed.
Print Assumptions C80_numbers_partial.

Example C80_numbers_case :
  as_written (TLiteral (LInt 42)) /\ token_kind_text demo_ext (fun t => t) (TLiteral (LInt 42)) = bs "42"%string.
Proof. split; [split; discriminate|vm_compute; reflexivity]. Qed.

(** ... but not arguments with variables: [$x] becomes [${{x}}], which the source does not hold. *)
Theorem C80_arguments_refuted : exists src t, In t (tokens_of (outputs (Lexer.lex src))) /\
  ~ exists a b, src = a ++ token_kind_text demo_ext (fun t => t) (tk_kind t) ++ b.
Proof. exact dollar_shown. Qed.
Print Assumptions C80_arguments_refuted.

(** C81.  With --lex every token and error of the lexer is listed in order. *)
Theorem C81_lines : forall {W} (X : ext W) fd path os,
  exists rule lines, tinted X (bs "3"%string) (repeat x2d 50) rule /\ Forall2 (lexeme_line X fd path) os lines /\
    lexemes_text X fd path os = rule ++ [NL] ++ concat lines ++ rule ++ [NL].
Proof. exact @lexemes_lines. Qed.
Print Assumptions C81_lines.

Theorem C81_shown : forall {W} (X : ext W) (O : os W) read_source n is_file m o w text w' b les pes os,
  parse_args is_file (ClapMatches m) = Some (CmdRun o) -> read_source (o_script o) w = (inr text, w') ->
  analyze text = Analysis b les pes -> Lexer.lex text = LexDone os -> o_lex o = true ->
  In (ShLexemes os) (snd (fst (hush X O read_source n is_file (ClapMatches m) w))).
Proof. exact @lexemes_shown. Qed.
Print Assumptions C81_shown.

Example C81_case :
  let r := repeat x2d 50 ++ [x0a] in
  lexemes_text demo_ext (fun t => t) (bs "f"%string) (outputs (Lexer.lex (bs "let x \"%string))) =
    r ++ bs "f (line 1, column 0):"%string ++ [x09] ++ bs "let"%string ++ [x0a] ++
    bs "f (line 1, column 4):"%string ++ [x09] ++ bs "x"%string ++ [x0a] ++
    bs "Error: line 1, column 6 - unexpected '\'."%string ++ [x0a] ++ r.
Proof. vm_compute. reflexivity. Qed.

Example C81_shown_case :
  let r := hush demo_ext demo_os (fun _ w => (inr (bs "let = 1 x = 2"%string), w)) 60 (fun _ => false)
             (ClapMatches (mkmatches true true false false [])) [] in
  exists e e' os, r = (Status StaticError, [ShSyntaxErrors [e]; ShLexemes os; ShSemanticErrors [e']], []) /\ length os = 6.
Proof. cbv zeta. eexists _, _, _. split; vm_compute; reflexivity. Qed.
