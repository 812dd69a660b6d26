(** Properties of the lexical level: C01, C03, C04, C05, C06, C07. *)
From Coq Require Import Strings.String.
From Verif Require Import Base Lexer LexerTermProofs SpecLexer LexerProofs LexerPosProofs
  LexerCrashProofs LexerFactsProofs.
Local Open Scope byte_scope.

(** C01.  Any spelling of a byte string between double quotes is read as that byte string,
    whatever follows; and every byte string has a spelling. *)
Theorem C01_string_literal : forall w s rest,
  spelling string_plain string_escapes w s ->
  hd_error (outputs (lex (QUOTE :: w ++ QUOTE :: rest))) =
  Some (OkTok (mktoken (TLiteral (LString s)) (mkpos 1 0))).
Proof. exact string_first. Qed.
Print Assumptions C01_string_literal.

Theorem C01_every_string_has_a_spelling : forall s, exists w, spelling string_plain string_escapes w s.
Proof. exact every_string_spelled. Qed.
Print Assumptions C01_every_string_has_a_spelling.

Theorem C01_byte_literal : forall w c rest,
  spelling single_plain string_escapes w [c] ->
  hd_error (outputs (lex ("'" :: w ++ "'" :: rest))) =
  Some (OkTok (mktoken (TLiteral (LByte c)) (mkpos 1 0))).
Proof. exact byte_first. Qed.
Print Assumptions C01_byte_literal.

Example C01_case : spelling string_plain string_escapes
  (["a"; BSLASH; "n"; "'"; BSLASH; QUOTE; xff]) ["a"; x0a; "'"; QUOTE; xff].
Proof.
  constructor; [reflexivity|discriminate|]. apply sp_escape; [cbn; tauto|].
  constructor; [reflexivity|discriminate|]. apply sp_escape; [cbn; tauto|].
  constructor; [reflexivity|discriminate|]. constructor.
Qed.

(** C03.  The lexer reads every source to its end within [16 + 16 * length src] rounds of the
    automaton, unless it hits an unimplemented feature. *)
Theorem C03_lexer_terminates : forall src, exists os,
  lex_rounds (16 + 16 * length src) (automaton_new src) = LexDone os \/
  lex_rounds (16 + 16 * length src) (automaton_new src) = LexCrash os.
Proof. exact lex_ends. Qed.
Print Assumptions C03_lexer_terminates.

Example C03_case :
  lex_rounds (16 + 16 * 9) (automaton_new (bs "let x = ~"%string)) =
  LexDone [OkTok (mktoken (TKeyword KLet) (mkpos 1 0)); OkTok (mktoken (TIdentifier ["x"]) (mkpos 1 4));
           OkTok (mktoken (TOperator OAssign) (mkpos 1 6)); ErrTok (mkerror (Unexpected "~") (mkpos 1 8))].
Proof. reflexivity. Qed.

(** C04.  The claim "no source text crashes the lexer" is false. *)
Theorem C04_no_crash_refuted : exists src os, lex src = LexCrash os.
Proof. exact crash_witness. Qed.
Print Assumptions C04_no_crash_refuted.

(** What does hold: a crash needs a [\[] or [{] somewhere after an opening brace; in
    particular a source without brace never crashes the lexer. *)
Theorem C04_crash_only_inside_a_command_block : forall src os,
  lex src = LexCrash os ->
  exists pre c rest, src = pre ++ c :: rest /\ (c = "[" \/ c = "{") /\ In "{" pre.
Proof. exact lex_crash_brace. Qed.
Print Assumptions C04_crash_only_inside_a_command_block.

Theorem C04_no_brace_no_crash : forall src,
  ~ In "{" src -> exists os, lex src = LexDone os.
Proof. exact no_brace_no_crash. Qed.
Print Assumptions C04_no_brace_no_crash.

Example C04_case : ~ In "{" (bs "let x = [1, 2]"%string).
Proof. cbn. intuition discriminate. Qed.

(** C05.  Every token stands on a non-empty stretch of the text that spells it, stretches come
    in order, the token's position is that of the first byte of its stretch, and every error
    position is that of some place of the text.  Holds for every source, erroneous or not. *)
Theorem C05_positions : forall src, placed [] src (outputs (lex src)).
Proof. exact placed_outputs. Qed.
Print Assumptions C05_positions.

Example C05_case :
  outputs (lex (bs "x"%string ++ [NL] ++ bs " # c"%string ++ [NL] ++ bs "  { ~y \e } "%string)) =
  [OkTok (mktoken (TIdentifier ["x"]) (mkpos 1 0)); OkTok (mktoken TCommand (mkpos 3 2));
   OkTok (mktoken (TArgument [PUnquoted (AULiteral (bs "~y"%string))]) (mkpos 3 4));
   ErrTok (mkerror (InvalidEscapeSequence ["\"; "e"]) (mkpos 3 7));
   OkTok (mktoken (TArgument [PUnquoted (AULiteral [" "])]) (mkpos 3 7));
   OkTok (mktoken TCloseCommand (mkpos 3 10))].
Proof. vm_compute. reflexivity. Qed.

(** C06.  A digit run is read as the integer it denotes, or reported when it exceeds the
    largest 64-bit integer. *)
Theorem C06_integer_literal : forall w rest,
  all_digits w -> may_follow (TLiteral (LInt 0)) rest ->
  hd_error (outputs (lex (w ++ rest))) =
  Some (if (decimal_value w <=? 9223372036854775807)%Z
        then OkTok (mktoken (TLiteral (LInt (decimal_value w))) (mkpos 1 0))
        else ErrTok (mkerror (InvalidNumber w) (mkpos 1 0))).
Proof. exact int_first. Qed.
Print Assumptions C06_integer_literal.

(** Anywhere in any source: an integer token stands on a digit run denoting its value. *)
Theorem C06_integer_tokens : forall src, 
  Forall (fun o => forall n p, o = OkTok (mktoken (TLiteral (LInt n)) p) ->
    exists pre w rest, src = pre ++ w ++ rest /\ p = position_of pre /\ all_digits w /\
      decimal_value w = n /\ (0 <= n <= 9223372036854775807)%Z) (outputs (lex src)).
Proof. exact int_tokens_exact. Qed.
Print Assumptions C06_integer_tokens.

Example C06_case :
  all_digits (bs "0009223372036854775808"%string) /\
  decimal_value (bs "0009223372036854775808"%string) = 9223372036854775808%Z /\
  may_follow (TLiteral (LInt 0)) (bs "+1"%string).
Proof.
  split; [split; [discriminate|repeat constructor]|]. split; [reflexivity|].
  repeat split; discriminate.
Qed.

(** C07.  A layout of tokens — each token spelled in any of its spellings, with any blanks and
    comments between, inside and outside command blocks — is lexed as exactly these tokens,
    with the positions of their first bytes, and no error. *)
Theorem C07_layout : forall src ts,
  layout InRoot [] src ts -> lex src = LexDone (map OkTok ts).
Proof. exact layout_lex. Qed.
Print Assumptions C07_layout.

Example C07_case :
  layout InRoot [] (bs "x#c"%string ++ NL :: bs "{ a$b }"%string)
  [mktoken (TIdentifier ["x"]) (mkpos 1 0); mktoken TCommand (mkpos 2 0);
   mktoken (TArgument [PUnquoted (AULiteral ["a"]); PUnquoted (AUDollar ["b"] (mkpos 2 3))]) (mkpos 2 2);
   mktoken TCloseCommand (mkpos 2 6)].
Proof. exact layout_example. Qed.
