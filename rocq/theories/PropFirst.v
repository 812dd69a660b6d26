(** C100: the first syntax error does not depend on the text after it, and comes no sooner than
    the text is beyond hope. *)
From Coq Require Import Strings.String.
From Verif Require Import Base Lexer Ast Parser SpecLexer SpecParser SpecReport SpecFirst FirstErrorProofs ViableProofs.

(** Whatever comes after the token named by the first syntax error and the one token after it, the
    first error stays the same. *)
Theorem C100_first_error : forall src1 src2 pre t next after1 after2 b1 les1 e es1,
  analyze src1 = Analysis b1 les1 (e :: es1) -> subject e = Some t ->
  source_tokens src1 = pre ++ t :: next :: after1 ->
  source_tokens src2 = pre ++ t :: next :: after2 ->
  analyze src2 = AnalysisCrash \/ exists b2 les2 es2, analyze src2 = Analysis b2 les2 (e :: es2).
Proof. exact first_error_source. Qed.
Print Assumptions C100_first_error.

(** So nothing that follows could have made the text well-formed. *)
Theorem C100_hopeless : forall src pre t next after b les e es,
  analyze src = Analysis b les (e :: es) -> subject e = Some t ->
  source_tokens src = pre ++ t :: next :: after -> ~ hopeful (pre ++ [t; next]).
Proof. exact hopeless_source. Qed.
Print Assumptions C100_hopeless.

(** But what comes before the token is the beginning of a well-formed text. *)
Theorem C100_hope_until : forall src pre t after b les e es,
  analyze src = Analysis b les (e :: es) -> subject e = Some t ->
  source_tokens src = pre ++ t :: after -> hopeful pre.
Proof. exact hope_until. Qed.
Print Assumptions C100_hope_until.

(** And if the first error is that the text ends, more text could have made it well-formed. *)
Theorem C100_hope_at_end : forall src b les e es,
  analyze src = Analysis b les (e :: es) -> subject e = None -> hopeful (source_tokens src).
Proof. exact hope_at_end. Qed.
Print Assumptions C100_hope_at_end.

(** The same error in front of different endings, one of them with further errors *)
Example C100_case : exists pre t next after1 after2 b1 b2 e es1 es2,
  analyze (bs "f([x]) let 5 y + 2"%string) = Analysis b1 [] (e :: es1) /\ subject e = Some t /\
  source_tokens (bs "f([x]) let 5 y + 2"%string) = pre ++ t :: next :: after1 /\
  source_tokens (bs "f([x]) let 5 y end"%string) = pre ++ t :: next :: after2 /\
  analyze (bs "f([x]) let 5 y end"%string) = Analysis b2 [] (e :: es2) /\ es1 <> es2 /\
  length pre = 7.
Proof.
  eexists [_; _; _; _; _; _; _], _, _, _, _, _, _, _, _, _. split; [vm_compute; reflexivity|]. split; [reflexivity|]. split; [vm_compute; reflexivity|].
  split; [vm_compute; reflexivity|]. split; [vm_compute; reflexivity|]. repeat split. discriminate.
Qed.

(** The token after the named one does matter: a number is an argument, unless an arrow follows. *)
Example C100_next : exists pre t a b1 b2 e,
  analyze (bs "{ a 999 > b }"%string) = Analysis b1 [] [e] /\ subject e = Some t /\
  source_tokens (bs "{ a 999 > b }"%string) = pre ++ t :: a /\ length pre = 2 /\
  analyze (bs "{ a 999 }"%string) = Analysis b2 [] [].
Proof.
  eexists [_; _], _, _, _, _, _. split; [vm_compute; reflexivity|]. split; [reflexivity|]. split; [vm_compute; reflexivity|].
  split; [reflexivity|vm_compute; reflexivity].
Qed.

(** A text that stops too early *)
Example C100_end : exists b e es,
  analyze (bs "if f(x) then return [1,"%string) = Analysis b [] (e :: es) /\ subject e = None.
Proof. do 3 eexists. split; [vm_compute; reflexivity|reflexivity]. Qed.
