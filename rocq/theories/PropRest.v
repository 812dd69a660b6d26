(** Properties of regular expressions, error values and the small functions of the library: C82 to
    C84. *)
From Coq Require Import Strings.String Lia.
From Verif Require Import Base Lexer Ast Program Value Text Json StdLib Exec Runtime Demo SpecSig SpecShow SpecRest
  TrimProofs RestProofs.

(** C82.  [std.regex] gives a dict with the three methods of the pattern, or an error value that
    tells what is wrong with it. *)
Theorem C82_regex : forall {W} (X : ext W) n ra pattern p h (w : W),
  (forall e, x_regex_check X pattern = Some e ->
     std_call X n ra SRegex [VStr pattern] p h w = Val (VErr (bs "invalid regex"%string) (VStr e)) (h, w)) /\
  (x_regex_check X pattern = None -> exists d h',
     std_call X n ra SRegex [VStr pattern] p h w = Val d (h', w) /\
     new_dictionary h h' d (map (fun m => (VStr (fst m), VFun (FRust (NRegex (snd m) pattern)))) regex_methods) /\
     forall name f k op fp (s : state W), In (name, f) regex_methods -> st_heap s = h' ->
       access (S k) d op (VStr name) fp s = Val (VFun (FRust (NRegex f pattern))) s).
Proof. exact @regex_made. Qed.
Print Assumptions C82_regex.

(** The methods answer for the pattern that they were made for and change nothing. *)
Theorem C82_methods : forall {W} (X : ext W) n ra f pattern texts p h (w : W) v h',
  regex_answer X pattern h f texts v h' ->
  native_call X n ra (NRegex f pattern) (map VStr texts) p h w = Val v (h', w).
Proof. exact @regex_method. Qed.
Print Assumptions C82_methods.

(** Wrong arguments are refused, and the first of them is named. *)
Theorem C82_refused : forall {W} (X : ext W) n ra f pattern args p h (w : W),
  (length args <> length (regex_takes f) ->
     native_call X n ra (NRegex f pattern) args p h w = Pan (PInvalidArgs (length args) (length (regex_takes f)) p) (h, w)) /\
  (forall v t, length args = length (regex_takes f) -> first_wrong (regex_takes f) args v t ->
     native_call X n ra (NRegex f pattern) args p h w = Pan (PTypeError v t p) (h, w)).
Proof. exact @regex_refused. Qed.
Print Assumptions C82_refused.

Example C82_case :
  x_regex_check demo_ext (bs "a+"%string) = None /\
  regex_answer demo_ext (bs "a+"%string) (mkheap [] [] [] []) RReplace [bs "x"%string; bs "y"%string] (VStr (bs "x"%string)) (mkheap [] [] [] []) /\
  first_wrong (regex_takes RReplace) [VStr []; VNil] VNil (bs "string"%string) /\
  demo 90 (bs "let r = std.regex(""a+"") std.println(r.split(""xay"")) std.println(r.match(""a""), r.replace(""x"", ""y"")) r.replace("""", 1)"%string)
  = Some (bs "[ ""xay"" ]
false	x
"%string, inr (PTypeError (VInt 1) (bs "string"%string) (mkspos (bs "main"%string) (mkpos 1 108)))).
Proof.
  split; [reflexivity|]. split; [apply (ra_replace demo_ext)|]. split; [apply (fw_later a_string); [reflexivity|now apply (fw_here a_string)]|].
  vm_compute. reflexivity.
Qed.

(** C83.  An error value gives back what it was made of, and has no other fields. *)
Theorem C83_error : forall {W} (X : ext W) n ra d c p h (w : W),
  exists e, std_call X n ra SError [VStr d; c] p h w = Val e (h, w) /\
    (forall m op fp (s : state W), access m e op (VStr (bs "description"%string)) fp s = Val (VStr d) s) /\
    (forall m op fp (s : state W), access m e op (VStr (bs "context"%string)) fp s = Val c s) /\
    (forall m op fp (s : state W) k, k <> VStr (bs "description"%string) -> k <> VStr (bs "context"%string) ->
       access m e op k fp s = Pan (PIndexOutOfBounds k fp) s).
Proof. exact @error_fields. Qed.
Print Assumptions C83_error.

(** The small functions do what they are for. *)
Theorem C83_small : forall {W} (X : ext W) n ra f args p h (w : W) o,
  answers X p f args (h, w) o -> std_call X n ra f args p h w = o.
Proof. exact @small_answer. Qed.
Print Assumptions C83_small.

Example C83_case :
  answers demo_ext (mkspos [] (mkpos 1 1)) SRead [VStr (bs "? "%string)] (mkheap [] [] [] [], []) (Val (VStr []) (mkheap [] [] [] [], bs "? "%string)) /\
  answers demo_ext (mkspos [] (mkpos 1 1)) SBytes [VStr (bs "ab"%string)] (mkheap [] [] [] [], [])
    (Val (VArr 0) (mkheap [] [[VByte x61; VByte x62]] [] [], [])) /\
  demo 90 (bs "let e = std.error(""what"", [1]) std.println(e.description, e.context) std.println(std.bytes(""ab"")) std.assert(1 == 2)"%string)
  = Some (bs "what	[ 1 ]
[ a, b ]
"%string, inr (PAssertionFailed (mkspos (bs "main"%string) (mkpos 1 108)))).
Proof.
  split; [apply (an_prompt demo_ext _ _ _ _ (bs "? "%string)); [reflexivity|]; now apply an_read|].
  split; [|vm_compute; reflexivity]. apply an_bytes. apply (new_arr_array (mkheap [] [] [] []) [VByte x61; VByte x62]).
Qed.

(** C84.  [std.trim] removes exactly the white space at both ends, of texts in UTF-8 or not. *)
Theorem C84_trim : forall {W} (X : ext W) n ra t p h w v,
  std_call X n ra STrim [VStr t] p h w = Val v (h, w) <-> exists m, trimmed t m /\ v = VStr m.
Proof. exact @trim_call. Qed.
Print Assumptions C84_trim.

(** U+2003 and U+00A0 are white space; two of the three bytes of U+2003 are not. *)
Example C84_case :
  trimmed ([x20; xe2; x80; x83] ++ [xe2; x80; x61; x20; x62] ++ [xc2; xa0; x0a]) [xe2; x80; x61; x20; x62] /\
  std_call demo_ext 0 VNil STrim [VStr [x20; xe2; x80; x83; xe2; x80; x61; x20; x62; xc2; xa0; x0a]] (mkspos [] (mkpos 1 1)) (mkheap [] [] [] []) []
  = Val (VStr [xe2; x80; x61; x20; x62]) (mkheap [] [] [] [], []).
Proof.
  split; [|vm_compute; reflexivity]. exists [x20; xe2; x80; x83], [xc2; xa0; x0a]. split; [reflexivity|].
  split; [apply (wh_char 32); [unfold white_space; lia|]; apply (wh_char 8195 []); [unfold white_space; lia|constructor]|].
  split; [apply (wh_char 160); [unfold white_space; lia|]; apply (wh_char 10 []); [unfold white_space; lia|constructor]|].
  split; [apply start_fixed|apply end_fixed]; vm_compute; reflexivity.
Qed.
