(** Properties of printed syntax trees. *)
From Coq Require Import Strings.String Lia.
From Verif Require Import Base Lexer Ast Parser SpecLexer SpecParser SpecAst Value StdLib Json Report AstFmt AstFmtProofs Demo.

(** C88: the text that [--ast] prints, after its first line, is read without errors as the same
    tree, places aside.  Missing: the trees that [readable_block] excludes; see the refutations
    below. *)
Theorem C88_same_tree_partial {W} (X : ext W) float_display path b :
  x_tty X = false -> keeps_words X -> readable_block (x_escape X) float_display false b ->
  exists text b',
    ast_text X float_display path b = bs "AST for "%string ++ x_escape X path ++ x0a :: text /\
    analyze text = Analysis b' [] [] /\ unplaced_block b' = unplaced_block b.
Proof. exact (fun T K => printed_tree_read X float_display T K path b). Qed.
Print Assumptions C88_same_tree_partial.

Example C88_case :
  let src := bs "let f = function(a, b) if a == b then return 1 else x.y = [1, ""a"", 'c'] end end let z = f(@[k: nil])? { K=v ls $i ""a${i}b"" 2>1 ? | cat }"%string in
  exists b, analyze src = Analysis b [] [] /\ x_tty demo_ext = false /\ keeps_words demo_ext /\ readable_block (x_escape demo_ext) (fun t => t) false b.
Proof.
  eexists. split; [vm_compute; reflexivity|]. split; [reflexivity|]. split; [intros w _; reflexivity|].
  cbn. unfold readable_command_block, readable_command, readable_basic, readable_fd. cbn. repeat match goal with
  | |- _ /\ _ => split
  | |- True => exact I
  | |- is_identifier _ => split; [do 2 eexists; split; reflexivity|split; [repeat constructor|vm_compute; intuition discriminate]]
  | |- spelling _ _ _ _ => repeat first [apply sp_nil|apply sp_plain; [reflexivity|discriminate|]]
  | |- Forall _ _ => constructor
  | |- readable_basic _ _ => unfold readable_basic; cbn
  | |- readable_fd _ => unfold readable_fd
  | |- readable_redirection _ _ => cbn
  | |- readable_key _ _ => cbn
  | |- readable_argument _ _ => split; [discriminate|cbn]
  | |- _ => first [discriminate|reflexivity|intros; discriminate|lia|cbn; intuition discriminate]
  end.
Qed.

Definition read_back {W} (X : ext W) float_display (b : block) : Prop :=
  exists b', analyze (block_text X float_display (Some 0%N) b) = Analysis b' [] [] /\ unplaced_block b' = unplaced_block b.

(** The statements of a function that is called at once are separated by semicolons. *)
Theorem C88_separator_refuted : exists src b,
  src = bs "(function() let a = 1 let b = 2 end)()"%string /\ analyze src = Analysis b [] [] /\
  block_text demo_ext (fun t => t) (Some 0%N) b = bs "function() let a = 1; let b = 2 end()"%string /\ ~ read_back demo_ext (fun t => t) b.
Proof. exact ast_separator_refuted. Qed.
Print Assumptions C88_separator_refuted.

(** A condition without statements, as part of an operation *)
Theorem C88_empty_refuted : exists src b,
  src = bs "(if true then end) == nil"%string /\ analyze src = Analysis b [] [] /\
  block_text demo_ext (fun t => t) (Some 0%N) b = bs "(if true thenend == nil)"%string /\ ~ read_back demo_ext (fun t => t) b.
Proof. exact ast_empty_refuted. Qed.
Print Assumptions C88_empty_refuted.

(** An operation after an expression is read as the argument of a call. *)
Theorem C88_call_refuted : exists src b,
  src = bs "x 1 + 2"%string /\ analyze src = Analysis b [] [] /\
  block_text demo_ext (fun t => t) (Some 0%N) b = bs "x"%string ++ x0a :: bs "(1 + 2)"%string /\ ~ read_back demo_ext (fun t => t) b.
Proof. exact ast_call_refuted. Qed.
Print Assumptions C88_call_refuted.

(** A field of a number *)
Theorem C88_field_refuted : exists src b,
  src = bs "(1).foo"%string /\ analyze src = Analysis b [] [] /\
  block_text demo_ext (fun t => t) (Some 0%N) b = bs "1.foo"%string /\ ~ read_back demo_ext (fun t => t) b.
Proof. exact ast_field_refuted. Qed.
Print Assumptions C88_field_refuted.

(** A float that is shown without a point, as Rust does, is read as an integer. *)
Theorem C88_float_refuted : exists src b, src = bs "1.0"%string /\ analyze src = Analysis b [] [] /\
  forall float_display, float_display (bs "1.0"%string) = bs "1"%string -> ~ read_back demo_ext float_display b.
Proof. exact ast_float_refuted. Qed.
Print Assumptions C88_float_refuted.

(** Expansions and dollars in single quotes, printed in double quotes *)
Theorem C88_expansion_refuted : exists src b,
  src = bs "{ ls * }"%string /\ analyze src = Analysis b [] [] /\ ~ read_back demo_ext (fun t => t) b.
Proof. exact ast_expansion_refuted. Qed.
Print Assumptions C88_expansion_refuted.
Theorem C88_dollar_refuted : exists src b,
  src = bs "{ ls '$a' }"%string /\ analyze src = Analysis b [] [] /\ ~ read_back demo_ext (fun t => t) b.
Proof. exact ast_dollar_refuted. Qed.
Print Assumptions C88_dollar_refuted.
