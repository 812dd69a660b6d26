(** Properties of the texts of values and of printing: C60 and C61. *)
From Coq Require Import Strings.String.
From Verif Require Import Base Lexer Ast Program Value StdLib Exec Runtime Demo SpecText SpecLib SpecShow ShowProofs PrintProofs.

(** C60.  The second part: values that are not part of themselves have a text. *)
Theorem C60_to_string : forall {W} (X : ext W) ra v p h w,
  (forall r, (exists n, std_call X n ra SToString [v] p h w = r /\ r <> Fuel) <->
     exists t, r = Val (VStr t) (h, w) /\ (v = VStr t \/ (forall s, v <> VStr s) /\ shown X h v t)) /\
  (some_order X -> showable h v -> exists n, std_call X n ra SToString [v] p h w <> Fuel).
Proof. exact @to_string_call. Qed.
Print Assumptions C60_to_string.

Theorem C60_one_text : forall {W} (X : ext W) h v t t', shown X h v t -> shown X h v t' -> t = t'.
Proof. exact @shown_fun. Qed.
Print Assumptions C60_one_text.

Definition nested : heap := mkheap [] [[VInt (-12); VDict 0]; []] [[(VStr (bs "k"%string), VErr (bs "d"%string) (VArr 1))]] [].
Example C60_case :
  shown demo_ext nested (VArr 0) (bs "[ -12, @[ ""k"": error: ""d"" ([ ]) ] ]"%string) /\
  demo 60 (bs "std.to_string([-12, @[k: std.error(""d"", [])], true])"%string)
  = Some ([], inl (VStr (bs "[ -12, @[ ""k"": error: ""d"" ([ ]) ], true ]"%string))).
Proof. split; [apply shown_iff; exists 9; vm_compute; reflexivity|vm_compute; reflexivity]. Qed.
Example C60_showable_case : showable nested (VArr 0) /\ some_order demo_ext.
Proof.
  split; [|intros d; apply Permutation.Permutation_refl]. apply sw_array. cbn. intros v [<-|[<-|[]]]; [apply sw_other; exact I|].
  apply sw_dict; cbn; intros k v [[= <- <-]|[]]; [apply sw_other; exact I|]. apply sw_error, sw_array. cbn. intros ? [].
Qed.

(** C61.  What [std.print] and [std.println] write to the terminal *)
Theorem C61_printing : forall {W} (X : ext W) ra args p h w,
  (forall r, (exists n, std_call X n ra SPrintln args p h w = r /\ r <> Fuel) <->
     exists ts, Forall2 (printed X h) args ts /\ r = written X (join [x09] ts ++ [x0a]) p h w) /\
  (forall r, (exists n, std_call X n ra SPrint args p h w = r /\ r <> Fuel) <->
     exists ts, Forall2 (printed X h) args ts /\ r = written X (join [x09] ts) p h w) /\
  (some_order X -> Forall (showable h) args -> exists ts, Forall2 (printed X h) args ts).
Proof. exact @printing. Qed.
Print Assumptions C61_printing.

Example C61_case :
  demo 60 (bs "std.println(""a"", 'b', [""c""]) std.print(nil, 1) std.println()"%string)
  = Some (bs "a"%string ++ [x09] ++ bs "b"%string ++ [x09] ++ bs "[ ""c"" ]"%string ++ [x0a] ++ bs "nil"%string ++ [x09] ++ bs "1"%string ++ [x0a], inl VNil) /\
  some_order demo_ext /\ Forall (showable nested) [VStr (bs "a"%string); VArr 0].
Proof.
  split; [vm_compute; reflexivity|]. split; [intros d; apply Permutation.Permutation_refl|].
  constructor; [apply sw_other; exact I|]. constructor; [apply C60_showable_case|constructor].
Qed.
