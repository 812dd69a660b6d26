(** Properties of printed programs: C93, C94. *)
From Coq Require Import Strings.String.
From Verif Require Import Base Lexer Ast Parser Program Sema Value StdLib AstFmt ProgFmt SpecLexer SpecParser SpecAst SpecProg
  ProgFmtProofs Demo.
Close Scope string_scope.

(** C93: two programs of which [--program] prints the same are the same, places aside.  Missing: the
    programs that [legible_program] excludes; see the refutations below. *)
Theorem C93_shown_apart_partial {W} (X : ext W) float_display path p p' :
  x_tty X = false -> keeps_words X ->
  legible_program (x_escape X) float_display p -> legible_program (x_escape X) float_display p' ->
  program_text X float_display path p = program_text X float_display path p' ->
  bare_program float_display p = bare_program float_display p'.
Proof. exact (fun T K => shown_apart X float_display T K path p p'). Qed.
Print Assumptions C93_shown_apart_partial.

Definition rich : bytes :=
  bs "let x = 1 let f = function (y) x = y if y then std.print([1, [2]]) else y = 1 end return self end while true do f(@[a: 1])[1] break end let d = @[] d.k = -2 { cd ""a""? ; A=b ls $x-a 2>>""f"" | cat 2>1 ?} for i in f do 'a' ++ nil end"%string.
Example C93_legible : exists p, compile rich = Some p /\ x_tty demo_ext = false /\ keeps_words demo_ext /\
  legible_program (x_escape demo_ext) (fun t => t) p.
Proof.
  eexists. split; [vm_compute; reflexivity|]. split; [reflexivity|]. split; [intros w _; reflexivity|].
  unfold legible_program. cbn [pr_statements all_of legible_statement legible legible_lvalue]. unfold legible_frame, legible_block. cbn.
  unfold legible_basic, legible_argument. cbn. repeat match goal with
  | |- _ /\ _ => split
  | |- True => exact I
  | |- is_identifier _ => split; [do 2 eexists; split; reflexivity|split; [repeat constructor|vm_compute; intuition discriminate]]
  | |- spelling _ _ _ _ => repeat first [apply sp_nil|apply sp_plain; [reflexivity|discriminate|]]
  | |- legible_basic _ _ => unfold legible_basic, legible_argument; cbn
  | |- legible_argument _ _ => unfold legible_argument; cbn
  | |- Forall _ _ => constructor; cbn
  | |- _ => first [discriminate|reflexivity|repeat constructor; fail]
  end.
Qed.

(** An expansion and the same in quotes *)
Theorem C93_expansion_refuted : exists src src' p p',
  src = bs "{ ls * }"%string /\ src' = bs "{ ls ""*"" }"%string /\ compile src = Some p /\ compile src' = Some p' /\
  bare_program (fun t => t) p <> bare_program (fun t => t) p' /\
  forall path, program_text demo_ext (fun t => t) path p = program_text demo_ext (fun t => t) path p'.
Proof. exact expansion_alike. Qed.
Print Assumptions C93_expansion_refuted.
(** A variable, and a text with the notation of slots *)
Theorem C93_slot_refuted : exists src src' p p',
  src = bs "{ ls $std }"%string /\ src' = bs "{ ls '${#0}' }"%string /\ compile src = Some p /\ compile src' = Some p' /\
  bare_program (fun t => t) p <> bare_program (fun t => t) p' /\
  forall path, program_text demo_ext (fun t => t) path p = program_text demo_ext (fun t => t) path p'.
Proof. exact slot_alike. Qed.
Print Assumptions C93_slot_refuted.
(** A float without a fraction, as Rust shows it *)
Theorem C93_float_refuted : exists src src' p p',
  src = bs "1.0"%string /\ src' = bs "1"%string /\ compile src = Some p /\ compile src' = Some p' /\
  forall float_display path, float_display (bs "1.0"%string) = bs "1"%string ->
  bare_program float_display p <> bare_program float_display p' /\
  program_text demo_ext float_display path p = program_text demo_ext float_display path p'.
Proof. exact float_alike. Qed.
Print Assumptions C93_float_refuted.

(** C94: a command is printed with a question mark exactly if it is written with one.  This holds
    of the commands of pipelines, *)
Theorem C94_mark_partial {W} (X : ext W) c st b st' : x_tty X = false ->
  analyze_basic c st = Some (Some b, st') -> (marked (xbasic_text X b) <-> bc_abort c = false).
Proof. exact (external_mark X c st b st'). Qed.
Print Assumptions C94_mark_partial.
(** and never of built-in commands: it is the other way round. *)
Theorem C94_builtin {W} (X : ext W) i c st b args abort p st' : x_tty X = false ->
  analyze_command i c st = Some (Some (XBuiltin b args abort p), st') ->
  (marked (xcommand_text X (XBuiltin b args abort p)) <-> bc_abort (cmd_head c) = true).
Proof. exact (builtin_mark X i c st b args abort p st'). Qed.
Print Assumptions C94_builtin.
Theorem C94_mark_refuted : exists p p', compile (bs "{ cd ""a"" ? }"%string) = Some p /\ compile (bs "{ cd ""a"" }"%string) = Some p' /\
  forall path, program_text demo_ext (fun t => t) path p =
    bs "Program for "%string ++ path ++ x0a :: bs "let #0: auto"%string ++ x0a :: bs "{"%string ++ x0a :: x09 :: bs "cd ""a"""%string ++ x0a :: bs "}"%string /\
  program_text demo_ext (fun t => t) path p' =
    bs "Program for "%string ++ path ++ x0a :: bs "let #0: auto"%string ++ x0a :: bs "{"%string ++ x0a :: x09 :: bs "cd ""a"" ?"%string ++ x0a :: bs "}"%string.
Proof. exact mark_refuted. Qed.
Print Assumptions C94_mark_refuted.

Example C94_case : exists c st b st' text, analyze_basic c st = Some (Some b, st') /\ bc_abort c = false /\
  text = xbasic_text demo_ext b /\ text = bs """ls"" ""a"" ?"%string.
Proof.
  exists (mkbasic (mkarg [APUnit (AULiteral (bs "ls"%string))] (mkpos 1 0)) [] [mkarg [APUnit (AULiteral (bs "a"%string))] (mkpos 1 0)] [] false (mkpos 1 0)).
  exists (mksstate [] [] []). do 3 eexists. repeat split; vm_compute; reflexivity.
Qed.
Example C94_builtin_case : exists c st args st', analyze_command false c st = Some (Some (XBuiltin BCd args true (mkpos 1 0)), st').
Proof.
  exists (mkcommand (mkbasic (mkarg [APUnit (AULiteral (bs "cd"%string))] (mkpos 1 0)) [] [] [] true (mkpos 1 0)) []).
  exists (mksstate [] [] []). do 2 eexists. vm_compute. reflexivity.
Qed.
