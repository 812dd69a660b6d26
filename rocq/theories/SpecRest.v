(** Specifications of regular expressions and of the small functions of the library. *)
From Coq Require Import Strings.String.
From Verif Require Import Base Lexer Ast Program Value Json StdLib SpecSig SpecShow.

(** [v] is an array that was not there before; nothing else has changed. *)
Definition new_array (h h' : heap) (v : value) (items : list value) : Prop :=
  exists l, v = VArr l /\ nth_error (h_arrs h) l = None /\ nth_error (h_arrs h') l = Some items /\
    (forall l', l' <> l -> nth_error (h_arrs h') l' = nth_error (h_arrs h) l') /\
    h_cells h' = h_cells h /\ h_dicts h' = h_dicts h /\ h_iters h' = h_iters h.
Definition new_dictionary (h h' : heap) (v : value) (items : list (value * value)) : Prop :=
  exists l, v = VDict l /\ nth_error (h_dicts h) l = None /\ nth_error (h_dicts h') l = Some items /\
    (forall l', l' <> l -> nth_error (h_dicts h') l' = nth_error (h_dicts h) l') /\
    h_cells h' = h_cells h /\ h_arrs h' = h_arrs h /\ h_iters h' = h_iters h.

(** ** Regular expressions *)

Definition regex_methods : list (bytes * regex_fun) :=
  [(bs "match", RMatch); (bs "split", RSplit); (bs "replace", RReplace)].

Definition regex_takes (f : regex_fun) : list kind :=
  match f with RMatch | RSplit => [a_string] | RReplace => [a_string; a_string] end.

(** What a method gives for its texts *)
Inductive regex_answer {W} (X : ext W) (pattern : bytes) (h : heap) : regex_fun -> list bytes -> value -> heap -> Prop :=
| ra_match s : regex_answer X pattern h RMatch [s] (VBool (x_regex_match X pattern s)) h
| ra_split s v h' : new_array h h' v (map VStr (x_regex_split X pattern s)) -> regex_answer X pattern h RSplit [s] v h'
| ra_replace s r : regex_answer X pattern h RReplace [s; r] (VStr (x_regex_replace X pattern s r)) h.

(** ** The small functions

    [answers f args (h, w) o]: called with [args] in the heap [h] and the world [w] the function
    does [o]. *)
Inductive answers {W} (X : ext W) (p : spos) : std_fun -> list value -> heap * W -> res (W := W) -> Prop :=
(** [std.assert] *)
| an_assert_true s : answers X p SAssert [VBool true] s (Val VNil s)
| an_assert_false s : answers X p SAssert [VBool false] s (Pan (PAssertionFailed p) s)
(** [std.bytes]: the bytes of a text in their order *)
| an_bytes t h w v h' : new_array h h' v (map VByte t) -> answers X p SBytes [VStr t] (h, w) (Val v (h', w))
(** [std.cd] and [std.cwd]: what the operating system says; failures are error values *)
| an_cd t h w w' : x_cd X t w = (None, w') -> answers X p SCd [VStr t] (h, w) (Val VNil (h, w'))
| an_cd_failed t h w w' e : x_cd X t w = (Some e, w') ->
    answers X p SCd [VStr t] (h, w) (Val (VErr e VNil) (h, w'))
| an_cwd h w t : x_cwd X w = inr t -> answers X p SCwd [] (h, w) (Val (VStr t) (h, w))
| an_cwd_failed h w e : x_cwd X w = inl e -> answers X p SCwd [] (h, w) (Val (VErr e VNil) (h, w))
(** [std.glob] *)
| an_glob t h w paths v h' : x_std_glob X t w = inl paths -> new_array h h' v (map VStr paths) ->
    answers X p SGlob [VStr t] (h, w) (Val v (h', w))
| an_glob_failed t h w d c : x_std_glob X t w = inr (d, c) -> answers X p SGlob [VStr t] (h, w) (Val (VErr d c) (h, w))
(** [std.panic] *)
| an_panic v s : answers X p SPanic [v] s (Pan (PUser v p) s)
(** random numbers: the generator is part of the world *)
| an_rand h w f w' : x_rand X w = (f, w') -> answers X p SRand [] (h, w) (Val (VFloat f) (h, w'))
| an_rand_int a b h w z w' : (a <= b)%Z -> x_rand_int X a b w = (z, w') ->
    answers X p SRandInt [VInt a; VInt b] (h, w) (Val (VInt z) (h, w'))
| an_rand_seed z h w : answers X p SRandSeed [VInt z] (h, w) (Val VNil (h, x_seed X z w))
(** [std.read]: the prompt is written before the line is read *)
| an_read h w t w' : x_read X w = (inr t, w') -> answers X p SRead [] (h, w) (Val (VStr t) (h, w'))
| an_read_failed h w e w' : x_read X w = (inl e, w') -> answers X p SRead [] (h, w) (Pan (PIo e p) (h, w'))
| an_prompt q h w w1 o : x_write X q w = (None, w1) -> answers X p SRead [] (h, w1) o -> answers X p SRead [VStr q] (h, w) o
| an_prompt_failed q h w w1 e : x_write X q w = (Some e, w1) -> answers X p SRead [VStr q] (h, w) (Pan (PIo e p) (h, w1))
(** [std.sleep] *)
| an_sleep z h w : (0 <= z)%Z -> answers X p SSleep [VInt z] (h, w) (Val VNil (h, x_sleep X z w))
| an_sleep_negative z s : (z < 0)%Z ->
    answers X p SSleep [VInt z] s (Pan (PValueError (VInt z) (bs "positive integer") p) s).

(** ** White space *)

(** The characters with the Unicode property White_Space *)
Definition white_space (c : N) : Prop :=
  (9 <= c <= 13 \/ c = 32 \/ c = 133 \/ c = 160 \/ c = 5760 \/ 8192 <= c <= 8202 \/
   c = 8232 \/ c = 8233 \/ c = 8239 \/ c = 8287 \/ c = 12288)%N.
Inductive whites : bytes -> Prop :=
| wh_nil : whites []
| wh_char c r : white_space c -> whites r -> whites (utf8 c ++ r).
Definition begins_white (t : bytes) : Prop := exists c r, white_space c /\ t = utf8 c ++ r.
Definition ends_white (t : bytes) : Prop := exists c r, white_space c /\ t = r ++ utf8 c.

(** [m] is [t] without the white space at its ends. *)
Definition trimmed (t m : bytes) : Prop :=
  exists a b, t = a ++ m ++ b /\ whites a /\ whites b /\ ~ begins_white m /\ ~ ends_white m.
