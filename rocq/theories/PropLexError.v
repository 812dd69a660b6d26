(** Properties of the errors of the lexer: C91. *)
From Coq Require Import Strings.String.
From Verif Require Import Base Lexer SpecLexer SpecLexError LexErrorProofs.
Local Open Scope byte_scope.

(** C91.  The claim "every error of the lexer describes the text at the place it names" is
    false: [1.x] blames the [x] but points at the [1], and in [{ \ef }] the second error shows
    three bytes as one escape sequence. *)
Theorem C91_described_refuted : exists src e,
  In (ErrTok e) (outputs (lex src)) /\ le_kind e = Unexpected "x" /\ ~ described src e.
Proof. exact number_misplaced. Qed.
Print Assumptions C91_described_refuted.

Theorem C91_escape_refuted : exists src e s,
  In (ErrTok e) (outputs (lex src)) /\ le_kind e = InvalidEscapeSequence s /\ ~ described src e.
Proof. exact escape_misplaced. Qed.
Print Assumptions C91_escape_refuted.

(** What does hold: these are the only two exceptions.  Every other error, of any source, names
    the place where the byte, the empty literal, the escape sequence, the number or the dollar
    sign it is about stands, shows exactly its bytes, and they are at fault. *)
Theorem C91_described_partial : forall src e,
  In (ErrTok e) (outputs (lex src)) ->
  described src e \/ about_cut_number src e \/ about_long_escape src e.
Proof. exact lex_errors_about. Qed.
Print Assumptions C91_described_partial.

Example C91_case :
  outputs (lex (bs "x ! 9223372036854775808"%string ++ [NL] ++ bs "'' ""a\qb"" { $1a ${a-b} \ef 'a"%string)) =
  [OkTok (mktoken (TIdentifier ["x"]) (mkpos 1 0)); ErrTok (mkerror (Unexpected "!") (mkpos 1 2));
   ErrTok (mkerror (InvalidNumber (bs "9223372036854775808"%string)) (mkpos 1 4));
   ErrTok (mkerror EmptyByteLiteral (mkpos 2 0));
   ErrTok (mkerror (InvalidEscapeSequence [BSLASH; "q"]) (mkpos 2 5));
   OkTok (mktoken (TLiteral (LString (bs "ab"%string))) (mkpos 2 3));
   OkTok (mktoken TCommand (mkpos 2 10));
   ErrTok (mkerror (InvalidIdentifier (bs "1a"%string)) (mkpos 2 12));
   ErrTok (mkerror (InvalidIdentifier (bs "a-b"%string)) (mkpos 2 16));
   OkTok (mktoken (TArgument []) (mkpos 2 12));
   ErrTok (mkerror (InvalidEscapeSequence [BSLASH; "e"]) (mkpos 2 23));
   ErrTok (mkerror (InvalidEscapeSequence [BSLASH; "e"; "f"]) (mkpos 2 23))].
Proof. vm_compute. reflexivity. Qed.
