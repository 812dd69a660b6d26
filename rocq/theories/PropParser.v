(** Properties of the parser: C08, C09, C10, C11. *)
From Coq Require Import Strings.String.
From Verif Require Import Base Lexer Ast Parser SpecLexer SpecParser SpecPrinter LexerFactsProofs
  ParserTermProofs ParserSoundProofs ParserCompleteProofs ParserFactsProofs.
Local Open Scope byte_scope.

(** C08.  An expression printed with the fewest parentheses is parsed back to itself. *)
Theorem C08_print_parse : forall leaf e,
  printable leaf e -> exists r, parse_tokens (show leaf 9 e) = Parsed (BBlock [SExpr e]) [] r.
Proof. exact show_parses. Qed.
Print Assumptions C08_print_parse.

(** The parser accepts exactly the token sequences of the grammar, and builds their tree. *)
Theorem C08_exactly_the_grammar : forall ts b,
  (exists r, parse_tokens ts = Parsed b [] r) <-> gprogram ts b.
Proof. exact parse_tokens_iff. Qed.
Print Assumptions C08_exactly_the_grammar.

(** No token sequence has two trees. *)
Theorem C08_unambiguous : forall ts b1 b2, gprogram ts b1 -> gprogram ts b2 -> b1 = b2.
Proof. exact gprogram_unique. Qed.
Print Assumptions C08_unambiguous.

(** The same starting from text: however the tokens are laid out. *)
Theorem C08_from_text : forall src ts b,
  layout InRoot [] src ts -> gprogram ts b -> analyze src = Analysis b [] [].
Proof. exact layout_analyze. Qed.
Print Assumptions C08_from_text.

Definition id_at (c : byte) (n : N) : expr := EIdent [c] (mkpos 1 n).

(** [a - (b - c) * not d.f] against [(a - b) - c * not (d.f)] and the like *)
Example C08_case :
  let e := EBinary (id_at "a" 0) BMinus
             (EBinary (EBinary (id_at "b" 5) BMinus (id_at "c" 9) (mkpos 1 7)) BTimes
                (EUnary UNot (EAccess (id_at "d" 18) (EFieldName ["f"] (mkpos 1 20)) (mkpos 1 19)) (mkpos 1 14))
                (mkpos 1 12)) (mkpos 1 2) in
  printable (fun _ => []) e /\
  map tk_kind (show (fun _ => []) 9 e) =
    [TIdentifier ["a"]; TOperator OMinus; TOpenParens; TIdentifier ["b"]; TOperator OMinus; TIdentifier ["c"];
     TCloseParens; TOperator OTimes; TOperator ONot; TIdentifier ["d"]; TOperator ODot; TIdentifier ["f"]] /\
  parse_tokens (show (fun _ => []) 9 e) = Parsed (BBlock [SExpr e]) [] true.
Proof. split; [cbn; tauto|]. split; vm_compute; reflexivity. Qed.

Example C08_text_case :
  layout InRoot [] (bs "x#c"%string ++ NL :: bs "{ a$b }"%string)
    [mktoken (TIdentifier ["x"]) (mkpos 1 0); mktoken TCommand (mkpos 2 0);
     mktoken (TArgument [PUnquoted (AULiteral ["a"]); PUnquoted (AUDollar ["b"] (mkpos 2 3))]) (mkpos 2 2);
     mktoken TCloseCommand (mkpos 2 6)] /\
  exists b,
  gprogram
    [mktoken (TIdentifier ["x"]) (mkpos 1 0); mktoken TCommand (mkpos 2 0);
     mktoken (TArgument [PUnquoted (AULiteral ["a"]); PUnquoted (AUDollar ["b"] (mkpos 2 3))]) (mkpos 2 2);
     mktoken TCloseCommand (mkpos 2 6)] b.
Proof.
  split; [exact layout_example|]. eexists. apply C08_exactly_the_grammar. eexists. vm_compute. reflexivity.
Qed.

(** C09 is false: at the top level, statements up to a return that is not the last one are
    silently left out.  The witness is [f return 1 g]. *)
Theorem C09_no_statement_dropped_refuted : exists ts all b r,
  written ts all /\ parse_tokens ts = Parsed b [] r /\ b <> BBlock all.
Proof.
  exists [tok (TIdentifier ["f"]) (mkpos 1 0); kw KReturn (mkpos 1 2); tok (TLiteral (LInt 1)) (mkpos 1 9);
          tok (TIdentifier ["g"]) (mkpos 1 11)].
  exists [SExpr (id_at "f" 0); SReturn (ELit (LInt 1) (mkpos 1 9)) (mkpos 1 2); SExpr (id_at "g" 11)].
  exists (BBlock [SExpr (id_at "g" 11)]), true.
  split; [exact dropped_witness|]. split; [vm_compute; reflexivity|discriminate].
Qed.
Print Assumptions C09_no_statement_dropped_refuted.

(** The same from text, where nothing is reported either. *)
Theorem C09_text_refuted : exists src b,
  analyze src = Analysis b [] [] /\ b = BBlock [SExpr (id_at "g" 11)] /\ src = bs "f return 1 g"%string.
Proof. eexists _, _. split; [|split; reflexivity]. vm_compute. reflexivity. Qed.
Print Assumptions C09_text_refuted.

(** What does hold: the tree is what was written after the last such return; without one it is
    everything that was written.  Full statement: [b = BBlock all] in every case. *)
Theorem C09_statements_kept_partial : forall ts b r,
  parse_tokens ts = Parsed b [] r ->
  exists all, written ts all /\ b = BBlock (after_return all) /\
    (existsb is_return (removelast all) = false -> b = BBlock all).
Proof. exact parse_written. Qed.
Print Assumptions C09_statements_kept_partial.

Example C09_case :
  parse_tokens [tok (TIdentifier ["f"]) (mkpos 1 0); tok (TIdentifier ["g"]) (mkpos 1 2); kw KReturn (mkpos 1 4);
                tok (TLiteral (LInt 1)) (mkpos 1 11)] =
  Parsed (BBlock [SExpr (id_at "f" 0); SExpr (id_at "g" 2); SReturn (ELit (LInt 1) (mkpos 1 11)) (mkpos 1 4)]) [] true.
Proof. vm_compute. reflexivity. Qed.

(** C10.  When no syntax error is reported the tree has no placeholder in it, and no name other
    than those that can be written. *)
Theorem C10_placeholders_are_reported : forall src b les,
  analyze src = Analysis b les [] -> wf_block b.
Proof. exact analyze_wf. Qed.
Print Assumptions C10_placeholders_are_reported.

(** Token level: for any tokens standing at real positions, with names made of letters, digits
    and underscores. *)
Theorem C10_tokens : forall ts b r,
  Forall (fun t => plain_token t /\ wf_pos (tk_pos t)) ts -> parse_tokens ts = Parsed b [] r -> wf_block b.
Proof. exact parse_wf. Qed.
Print Assumptions C10_tokens.

Example C10_case :
  (exists b, analyze (bs "let x = if a then { ls > 2 } else [1, -2] end"%string) = Analysis b [] []) /\
  (exists b e es, analyze (bs "let x = )"%string) = Analysis b [] (e :: es) /\ ~ wf_block b).
Proof.
  split; [eexists; vm_compute; reflexivity|]. eexists _, _, _. split; [vm_compute; reflexivity|]. cbn. tauto.
Qed.

(** C11.  The parser ends on every token sequence, and so does the whole analysis of a text. *)
Theorem C11_parser_terminates : forall ts, exists b es r, parse_tokens ts = Parsed b es r.
Proof. exact parse_tokens_total. Qed.
Print Assumptions C11_parser_terminates.

Theorem C11_analysis_terminates : forall src, analyze src <> AnalysisFuel.
Proof. exact analyze_total. Qed.
Print Assumptions C11_analysis_terminates.

Example C11_case :
  exists b es, parse_tokens (map (fun k => mktoken k (mkpos 1 0))
    [TKeyword KIf; TOpenParens; TComma; TKeyword KEnd; TPipe; TCloseBracket; TKeyword KElse; TOperator OAssign]) =
  Parsed b es true /\ List.length es = 4.
Proof. eexists _, _. split; vm_compute; reflexivity. Qed.
