(** C104: a symbol stands for one name. *)
From Coq Require Import Strings.String.
From Verif Require Import Base Text Lexer Ast Value StdLib AstFmt Interner SpecLexer SpecFirst SpecInterner LexerProofs InternerProofs.

(** Whatever names are interned, in whatever order and however often: each symbol gives its name back, and
    two symbols are the same exactly if the names are. *)
Theorem C104_names_partial : forall names ids s,
  symbols_of names = Some (ids, s) ->
  Forall2 (fun name id => resolve_symbol s id = Some name) names ids /\
  (forall i j a b x y, nth_error names i = Some a -> nth_error ids i = Some x ->
     nth_error names j = Some b -> nth_error ids j = Some y -> (a = b <-> x = y)).
Proof. exact symbols_correspond. Qed.
Print Assumptions C104_names_partial.

(** Symbols are numbers of 32 bits. *)
Theorem C104_small_partial : forall names ids s,
  symbols_of names = Some (ids, s) -> Forall (fun id => (id < 4294967296)%N) ids.
Proof. exact symbols_small. Qed.
Print Assumptions C104_small_partial.

(** Interning more names later changes none of the symbols there are, nor what they stand for. *)
Theorem C104_later_partial : forall names ids s more all s',
  symbols_of names = Some (ids, s) -> symbols_of (names ++ more) = Some (all, s') ->
  (exists l, all = ids ++ l) /\ forall id name, resolve_symbol s id = Some name -> resolve_symbol s' id = Some name.
Proof. exact symbols_stay. Qed.
Print Assumptions C104_later_partial.

(** There are enough symbols for fewer than 2^32 different names. *)
Theorem C104_enough_partial : forall names few,
  (forall n, In n names -> In n few) -> (N.of_nat (length few) < 4294967296)%N -> symbols_of names <> None.
Proof. exact room_enough. Qed.
Print Assumptions C104_enough_partial.

(** A name that stands in a source is never taken for the dummy symbol, and is shown as it is. *)
Theorem C104_shown_partial : forall W (X : ext W) src name names ids s i id,
  named_in src name -> symbols_of names = Some (ids, s) ->
  nth_error names i = Some name -> nth_error ids i = Some id ->
  id <> default_symbol /\ symbol_fmt X s id = symbol_text X name.
Proof. exact @named_shown. Qed.
Print Assumptions C104_shown_partial.

(** The full statement, for paths as well, does not hold: a script with the name of the dummy symbol is
    shown as if it were ill-formed. *)
Theorem C104_path_refuted : exists path s,
  symbols_of [path] = Some ([default_symbol], s) /\
  forall W (X : ext W), symbol_fmt X s default_symbol = red X (bs "***ill-formed***"%string).
Proof. exists (bs "<invalid symbol>"%string). eexists. split; [vm_compute; reflexivity|]. intros W X. reflexivity. Qed.
Print Assumptions C104_path_refuted.

Example C104_case :
  exists s, symbols_of [bs "a.hsh"; bs "x"; bs "y"; bs "x"; bs "std"]%string = Some ([1; 2; 3; 2; 4]%N, s) /\
  named_in (bs "let x = 1 { echo $y }"%string) (bs "x"%string) /\ named_in (bs "let x = 1 { echo $y }"%string) (bs "y"%string).
Proof.
  eexists. split; [vm_compute; reflexivity|]. split.
  - eexists. split; [vm_compute; right; left; reflexivity|reflexivity].
  - eexists. split; [vm_compute; do 6 right; left; reflexivity|]. eexists. split; [left; reflexivity|]. cbn. eexists. reflexivity.
Qed.
