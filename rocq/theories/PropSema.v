(** Properties of the static semantic analysis (C12 to C16). *)
From Coq Require Import Strings.String.
From Verif Require Import Base Lexer Ast Parser Program Sema SpecLexer SpecParser SpecSema SpecProgram SpecKeys
  ParserFactsProofs SemaProofs SemaShapeProofs SemaMainProofs SemaFactsProofs SemaTextProofs KeysProofs.

(** C12.  In an accepted program every name has been replaced by the slot of the innermost
    declaration in scope, through blocks and enclosing functions, and distinct variables of a
    function have distinct slots. *)
Theorem C12_lexical_scope : forall src b les p,
  analyze src = Analysis b les [] -> sema b = SemaOk p -> legal b /\ addressed b p.
Proof. exact text_accepted. Qed.
Print Assumptions C12_lexical_scope.

(** A program that uses an undeclared name, redeclares a name in its block, or breaks another
    rule of scope, is rejected with an error. *)
Theorem C12_illegal_rejected : forall src b les,
  analyze src = Analysis b les [] -> ~ legal b -> exists e es, sema b = SemaErrors (e :: es).
Proof. exact text_illegal. Qed.
Print Assumptions C12_illegal_rejected.

(** A legal program is accepted unless a duplicate key is reported, in which case nothing else
    is reported. *)
Theorem C12_legal_accepted : forall src b les,
  analyze src = Analysis b les [] -> legal b ->
  (exists p, sema b = SemaOk p) \/
  (exists es, sema b = SemaErrors es /\ es <> [] /\ Forall (fun e => exists k, se_kind e = DuplicateKey k) es).
Proof. exact text_legal. Qed.
Print Assumptions C12_legal_accepted.

(** The same for trees that were not read from text, as long as they have no placeholder. *)
Theorem C12_trees : forall b, wf_block b ->
  (forall p, sema b = SemaOk p -> legal b /\ addressed b p) /\
  (forall es, sema b = SemaErrors es ->
     es <> [] /\ (legal b -> Forall (fun e => exists k, se_kind e = DuplicateKey k) es)).
Proof. exact sema_correct. Qed.
Print Assumptions C12_trees.

(** A variable is captured through two functions, and shadowed in a block. *)
Example C12_case :
  exists b p,
    analyze (bs "let x = 1 let f = function (y) let x = x return function () if y then let y = x return y end return y end end"%string)
      = Analysis b [] [] /\ sema b = SemaOk p /\
    pr_root_slots p = 3 /\
    (exists a f r, pr_statements p = [a; XAssign (LIdent 2 f) (XFunction 1 (mkframe_info 2 [] None) r (mkpos 1 18))] /\
      exists q1 q2 q3 body, r = [XAssign (LIdent 1 q1) (XIdent 1 q2);
        XReturn (XFunction 0 (mkframe_info 3 [mkcapture 0 0; mkcapture 1 2] None) body q3)]).
Proof.
  eexists _, _. split; [vm_compute; reflexivity|]. split; [vm_compute; reflexivity|]. split; [reflexivity|].
  eexists _, _, _. split; [reflexivity|]. eexists _, _, _, _. reflexivity.
Qed.

Example C12_rejected :
  exists b es, analyze (bs "let f = function () y = 1 end let y = 2"%string) = Analysis b [] [] /\
    ~ legal b /\ sema b = SemaErrors es /\ map se_kind es = [UndeclaredVariable (bs "y"%string)].
Proof.
  eexists _, _. split; [vm_compute; reflexivity|]. split; [|split; [vm_compute; reflexivity|reflexivity]].
  cbn. intros H. decompose [and or] H; discriminate || contradiction.
Qed.

(** C13 is false of the code: the set of keys is shared between nested literals and cleared at
    the start of each.  Distinct keys can be rejected… *)
Theorem C13_distinct_rejected_refuted : exists src b es,
  src = bs "@[a: @[b: 1], b: 2]"%string /\ analyze src = Analysis b [] [] /\
  sema b = SemaErrors es /\ map se_kind es = [DuplicateKey (bs "b"%string)] /\
  exists pa pb pc va vb p,
    b = BBlock [SExpr (EDict [(bs "a"%string, pa, EDict [(bs "b"%string, pc, va)] p); (bs "b"%string, pb, vb)] (mkpos 1 0))].
Proof.
  eexists _, _, _. split; [reflexivity|]. split; [vm_compute; reflexivity|]. split; [vm_compute; reflexivity|]. split; [reflexivity|].
  eexists _, _, _, _, _, _. reflexivity.
Qed.
Print Assumptions C13_distinct_rejected_refuted.

(** … and repeated keys accepted. *)
Theorem C13_repeated_accepted_refuted : exists src b p,
  src = bs "@[a: @[b: 1], a: 2]"%string /\ analyze src = Analysis b [] [] /\ sema b = SemaOk p /\
  exists pa pb v w, b = BBlock [SExpr (EDict [(bs "a"%string, pa, v); (bs "a"%string, pb, w)] (mkpos 1 0))].
Proof.
  eexists _, _, _. split; [reflexivity|]. split; [vm_compute; reflexivity|]. split; [vm_compute; reflexivity|].
  eexists _, _, _, _. reflexivity.
Qed.
Print Assumptions C13_repeated_accepted_refuted.

(** It holds of the programs in which only the last value of a dict literal has dict literals in
    it: exactly the repeated keys are reported, with their places and in their order.  Missing for
    C13: the other programs, of which it is false. *)
Theorem C13_keys_partial : forall src b les ks,
  analyze src = Analysis b les [] -> legal b -> flat_block b -> repeated b ks ->
  match ks with
  | [] => exists p, sema b = SemaOk p
  | _ => sema b = SemaErrors (map (fun kp => mkserror (DuplicateKey (fst kp)) (snd kp)) ks)
  end.
Proof. exact repeated_keys. Qed.
Print Assumptions C13_keys_partial.

Example C13_keys_case : exists b,
  analyze (bs "let f = function () return @[a: 1, b: @[a: 2, c: 3, a: 4]] end let g = @[x: f, x: 2].x"%string) = Analysis b [] [] /\
  legal b /\ flat_block b /\
  repeated b [(bs "a"%string, mkpos 1 52); (bs "x"%string, mkpos 1 79)].
Proof.
  eexists. split; [vm_compute; reflexivity|]. split; [|split].
  - vm_compute. repeat split; auto; try discriminate; try (constructor; fail); intros H; decompose [or] H; try discriminate; contradiction.
  - vm_compute. repeat split.
  - exists [[]; [(bs "a"%string, mkpos 1 52)]; [(bs "x"%string, mkpos 1 79)]]. split; [|reflexivity].
    repeat (apply Forall2_cons; [|]); try apply Forall2_nil;
    repeat first [apply re_nil | apply re_new; [vm_compute; intros H; decompose [or] H; try discriminate; contradiction|] |
                  apply re_old; [vm_compute; tauto|]].
Qed.

(** C14, static part. *)
Theorem C14_accepted_control_flow : forall src b les p,
  analyze src = Analysis b les [] -> sema b = SemaOk p -> placed_block false false b.
Proof. exact text_placed. Qed.
Print Assumptions C14_accepted_control_flow.

Example C14_case :
  (exists b p, analyze (bs "let f = function (xs) for x in xs do if x then break end return self[x]? end end"%string) = Analysis b [] [] /\
     sema b = SemaOk p) /\
  (exists b es, analyze (bs "for x in f do let g = function () break end end"%string) = Analysis b [] [] /\
     sema b = SemaErrors es /\ map se_kind es = [UndeclaredVariable (bs "f"%string); BreakOutsideLoop]) /\
  (exists b es, analyze (bs "while true do std? end"%string) = Analysis b [] [] /\
     sema b = SemaErrors es /\ map se_kind es = [TryOutsideFunction]).
Proof. repeat split; eexists _, _; repeat (split; [vm_compute; reflexivity|]); vm_compute; reflexivity. Qed.

(** C15, static part: the slots of accepted programs exist. *)
Theorem C15_slots_exist : forall src b les p,
  analyze src = Analysis b les [] -> sema b = SemaOk p -> valid_program p.
Proof. exact text_valid. Qed.
Print Assumptions C15_slots_exist.

(** The analyser itself never panics, on any tree whatever. *)
Theorem C15_analyser_no_panic : forall b, sema b <> SemaCrash.
Proof. exact sema_no_crash. Qed.
Print Assumptions C15_analyser_no_panic.

Example C15_case :
  exists b p, analyze (bs "let n = 0 let f = function (x, y) let z = x let g = function () n = z + y self.f() end for i in g do { echo $i $n } end end"%string)
    = Analysis b [] [] /\ sema b = SemaOk p /\ pr_root_slots p = 3.
Proof. eexists _, _. repeat (split; [vm_compute; reflexivity|]). reflexivity. Qed.

(** C16. *)
Theorem C16_builtins_stand_alone : forall src b les p,
  analyze src = Analysis b les [] -> sema b = SemaOk p -> Forall standalone (blocks_block b).
Proof. exact text_builtins. Qed.
Print Assumptions C16_builtins_stand_alone.

Example C16_case :
  (exists b p, analyze (bs "let f = function () { cd /tmp; ls | wc > x; exec true } end"%string) = Analysis b [] [] /\
     sema b = SemaOk p /\ List.length (blocks_block b) = 1) /\
  (exists b es, analyze (bs "&{ cd /tmp } ${ ls; cd / } { ls | cd /; cd / > x }"%string) = Analysis b [] [] /\
     sema b = SemaErrors es /\ map se_kind es = [AsyncBuiltin; AsyncBuiltin; AsyncBuiltin; AsyncBuiltin]).
Proof. split; eexists _, _; repeat (split; [vm_compute; reflexivity|]); vm_compute; reflexivity. Qed.
