(** C89: the standard library and its names. *)
From Coq Require Import Strings.String Permutation.
From Verif Require Import Base Lexer Ast Program Value StdLib Exec Runtime Demo Library SpecNames NamesProofs NamesRunProofs SpecRuntime.

(** In whatever order the functions are registered, the library is built without a panic and has
    each of them under its name. *)
Theorem C89_any_order : forall order, Permutation order (map snd library) ->
  exists h, lib_new order empty_library = Some h /\ holds_library h 0.
Proof. exact any_order. Qed.
Print Assumptions C89_any_order.

(** No two functions have one name, and every function has one. *)
Theorem C89_every_function : forall f, exists path, In (path, f) library /\
  (forall path' f', In (path', f') library -> (path' = path <-> f' = f)) /\ std_name f = bs "std"%string ++ dotted path.
Proof. exact named_once. Qed.
Print Assumptions C89_every_function.

(** A program starts with this library, *)
Theorem C89_initial : forall {W} args (w : W), std_value = VDict 0 /\ holds_library (st_heap (initial args w)) 0.
Proof. exact @initial_std. Qed.
Print Assumptions C89_initial.

(** and finds the functions by name, as long as it does not change the library. *)
Theorem C89_found : forall {W} (X : ext W) (O : os W) n u e s s1 path f p l,
  gives X O n u e s (VDict l) s1 -> holds_library (st_heap s1) l -> In (path, f) library ->
  exists m, gives X O m u (along e path p) s (function_of f) s1.
Proof. exact @find_along. Qed.
Print Assumptions C89_found.

(** Other names are not found. *)
Theorem C89_missing : forall {W} (X : ext W) (O : os W) n u e s s1 k p l,
  gives X O n u e s (VDict l) s1 -> holds_library (st_heap s1) l -> (forall path f, ~ In (k :: path, f) library) ->
  panics X O (S n) u (along e [k] p) s (PIndexOutOfBounds (VStr k) (at_ u p)) s1.
Proof. exact @missing_name. Qed.
Print Assumptions C89_missing.

(** The library built in the reverse order; two programs that use it. *)
Example C89_case :
  (exists h, lib_new (rev (map snd library)) empty_library = Some h /\ length (h_dicts h) = 4 /\
     found h 0 [bs "hex"%string; bs "decode"%string] (function_of SHexDecode)) /\
  Permutation (rev (map snd library)) (map snd library) /\
  In ([bs "json"%string; bs "encode"%string], SJsonEncode) library /\
  (forall path f, ~ In (bs "length"%string :: path, f) library) /\
  demo 30 (bs "std.hex.encode(""AB"")"%string) = Some ([], inl (VStr (bs "4142"%string))) /\
  (exists p, demo 30 (bs "std.length"%string) = Some ([], inr (PIndexOutOfBounds (VStr (bs "length"%string)) p))).
Proof.
  split; [|split; [apply Permutation_sym, Permutation_rev|split; [|split]]].
  - eexists. split; [vm_compute; reflexivity|]. split; [reflexivity|]. apply (fo_more _ _ _ 2); [vm_compute; repeat (first [left; reflexivity|right])|].
    apply fo_last. vm_compute. repeat (first [left; reflexivity|right]).
  - vm_compute. repeat (first [left; reflexivity|right]).
  - intros path f I. vm_compute in I. repeat (destruct I as [I|I]; [discriminate|]). exact I.
  - split; [vm_compute; reflexivity|]. eexists. vm_compute. reflexivity.
Qed.
