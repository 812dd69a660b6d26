(** C97: the errors of the semantic analyser. *)
From Coq Require Import Strings.String.
From Verif Require Import Base Lexer Ast Parser Program Sema SpecLexer SpecParser SpecSema SpecKeys SpecFault FaultTextProofs.

(** C97, full statement: the analyser reports all that is wrong with a program, and nothing else:
    every fault once, with its place, in the order of the text ([es = faults b], repeated keys
    apart).  It is false, see below.  What holds: every error is a fault of the program at that
    place, or about a key.  But for keys and [?], exactly the faults shown are reported, in their
    order.  When no key is complained about, this holds of [?] too. *)
Theorem C97_reported_partial : forall src b les es,
  analyze src = Analysis b les [] -> sema b = SemaErrors es ->
  (forall e, In e es -> is_key_error e = true \/ In e (faults b)) /\
  filter told es = filter told (shown_faults b) /\
  (existsb is_key_error es = false -> es = shown_faults b).
Proof. exact text_reported. Qed.
Print Assumptions C97_reported_partial.

(** Where no key is repeated, and only the last value of a dict literal has dict literals in it,
    the outcome is known from the faults alone. *)
Theorem C97_exact_partial : forall src b les,
  analyze src = Analysis b les [] -> flat_block b -> repeated b [] ->
  match shown_faults b with
  | [] => exists p, sema b = SemaOk p
  | es => sema b = SemaErrors es
  end.
Proof. exact text_exact. Qed.
Print Assumptions C97_exact_partial.

(** What is shown is a fault, and a program is legal when nothing is shown. *)
Theorem C97_shown : forall b, incl (shown_faults b) (faults b) /\ (shown_faults b = [] <-> legal b).
Proof. exact (fun b => conj (shown_incl b) (shown_legal b)). Qed.
Print Assumptions C97_shown.

(** A fault can be left unsaid until another is mended: that [?] is outside a function, while its
    operand has a fault. *)
Theorem C97_hidden_refuted : exists src b es e,
  src = bs "nope?"%string /\ analyze src = Analysis b [] [] /\ sema b = SemaErrors es /\ In e (faults b) /\ ~ In e es.
Proof.
  eexists _, _, _, (mkserror TryOutsideFunction (mkpos 1 4)). split; [reflexivity|]. split; [vm_compute; reflexivity|].
  split; [vm_compute; reflexivity|]. split; [vm_compute; auto|]. intros [H|[]]. discriminate H.
Qed.
Print Assumptions C97_hidden_refuted.

(** A fault can be left unsaid for good: an undeclared variable among the settings of a builtin. *)
Theorem C97_accepted_refuted : exists src b p e,
  src = bs "{ A=$nope cd / }"%string /\ analyze src = Analysis b [] [] /\ sema b = SemaOk p /\
  In e (faults b) /\ e = mkserror (UndeclaredVariable (bs "nope"%string)) (mkpos 1 4).
Proof.
  eexists _, _, _, _. split; [reflexivity|]. split; [vm_compute; reflexivity|].
  split; [vm_compute; reflexivity|]. split; [vm_compute; auto|reflexivity].
Qed.
Print Assumptions C97_accepted_refuted.

Definition faulty : bytes := bs "let x = y
let x = function(a, b, a) return self end
{ ls $x $z > $w; cd / | cat $q }
1 = nope
break
return self"%string.

Example C97_case : exists b, analyze faulty = Analysis b [] [] /\ flat_block b /\ repeated b [] /\
  sema b = SemaErrors (shown_faults b) /\ map (fun e => (se_kind e, line (se_pos e), column (se_pos e))) (shown_faults b) =
    [(UndeclaredVariable (bs "y"%string), 1%N, 8%N); (DuplicateVariable (bs "x"%string), 2%N, 4%N);
     (DuplicateVariable (bs "a"%string), 2%N, 23%N); (UndeclaredVariable (bs "z"%string), 3%N, 8%N);
     (UndeclaredVariable (bs "w"%string), 3%N, 13%N); (AsyncBuiltin, 3%N, 17%N); (InvalidAssignment, 4%N, 2%N);
     (UndeclaredVariable (bs "nope"%string), 4%N, 4%N); (BreakOutsideLoop, 5%N, 0%N); (ReturnOutsideFunction, 6%N, 0%N);
     (SelfOutsideFunction, 6%N, 7%N)] /\
  List.length (faults b) = 12.
Proof.
  eexists. split; [vm_compute; reflexivity|].
  split; [vm_compute; tauto|]. split; [exists []; split; [vm_compute; constructor|reflexivity]|].
  split; [vm_compute; reflexivity|]. split; vm_compute; reflexivity.
Qed.

(** With a repeated key, the [?] is not mentioned. *)
Example C97_key_case : exists b es, analyze (bs "@[a: 1, a: std]?
nope"%string) = Analysis b [] [] /\ sema b = SemaErrors es /\
  map se_kind es = [DuplicateKey (bs "a"%string); UndeclaredVariable (bs "nope"%string)] /\
  map se_kind (shown_faults b) = [TryOutsideFunction; UndeclaredVariable (bs "nope"%string)].
Proof.
  eexists _, _. split; [vm_compute; reflexivity|]. split; [vm_compute; reflexivity|]. split; vm_compute; reflexivity.
Qed.
