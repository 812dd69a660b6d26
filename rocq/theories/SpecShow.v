(** What values and panics look like as text. *)
From Coq Require Import Strings.String Sorting.Permutation.
From Verif Require Import Base Lexer Ast Program Value Text StdLib SpecText SpecNames.

(** ** Numbers and characters *)
Definition digit (d : N) : byte := nth (N.to_nat d) (bs "0123456789") x00.

(** The decimal digits of a number, without leading zeros *)
Inductive numeral : N -> bytes -> Prop :=
| nu_digit d : (d < 10)%N -> numeral d [digit d]
| nu_more x d t : x <> 0%N -> (d < 10)%N -> numeral x t -> numeral (10 * x + d) (t ++ [digit d]).

Inductive integer : Z -> bytes -> Prop :=
| in_positive x t : numeral x t -> integer (Z.of_N x) t
| in_negative x t : x <> 0%N -> numeral x t -> integer (- Z.of_N x) (x2d :: t).

(** The UTF-8 encoding of a character, by number *)
Definition utf8 (n : N) : bytes :=
  if (n <? 128)%N then [byte_of n]
  else if (n <? 2048)%N then [byte_of (192 + n / 64); byte_of (128 + n mod 64)]%N
  else if (n <? 65536)%N
  then [byte_of (224 + n / 4096); byte_of (128 + n / 64 mod 64); byte_of (128 + n mod 64)]%N
  else [byte_of (240 + n / 262144); byte_of (128 + n / 4096 mod 64);
        byte_of (128 + n / 64 mod 64); byte_of (128 + n mod 64)]%N.

Section Show.
Context {W : Type}.
Variable X : ext W.

(** On a terminal some parts are coloured: 1 is red, 2 green, 3 yellow. *)
Inductive tinted (color : bytes) (t : bytes) : bytes -> Prop :=
| ti_plain : x_tty X = false -> tinted color t t
| ti_color : x_tty X = true ->
    tinted color t ([x1b] ++ bs "[38;5;" ++ color ++ bs "m" ++ t ++ [x1b] ++ bs "[39m").

(** A place in a source: [path (line 1, column 2)] *)
Inductive placed : spos -> bytes -> Prop :=
| pl_intro path l c path' l' c' :
    tinted (bs "2") (x_escape X path) path' -> numeral l l' -> numeral c c' ->
    placed (mkspos path (mkpos l c)) (path' ++ bs " (line " ++ l' ++ bs ", column " ++ c' ++ bs ")").

(** ** Values *)

(** The texts of the items of a collection, between its brackets *)
Definition listing (ts : list bytes) : bytes :=
  match ts with [] => bs " " | _ => bs " " ++ join (bs ", ") ts ++ bs " " end.

(** [shown h v t]: the text of [v] is [t].  Strings are quoted and escaped; the entries of a dict
    come in the order of the hash map. *)
Inductive shown (h : heap) : value -> bytes -> Prop :=
| sh_nil : shown h VNil (bs "nil")
| sh_true : shown h (VBool true) (bs "true")
| sh_false : shown h (VBool false) (bs "false")
| sh_int z t : integer z t -> shown h (VInt z) t
| sh_float f : shown h (VFloat f) (x_float_text X f)
| sh_char b : shown h (VByte b) (utf8 (Byte.to_N b))
| sh_string s : shown h (VStr s) ([x22] ++ x_escape X s ++ [x22])
| sh_array l ts : Forall2 (shown h) (arr_get h l) ts -> shown h (VArr l) (bs "[" ++ listing ts ++ bs "]")
| sh_dict l ts : Forall2 (entry_shown h) (x_order X (dict_entries h l)) ts ->
    shown h (VDict l) (bs "@[" ++ listing ts ++ bs "]")
| sh_function u params fi b c p t : placed p t ->
    shown h (VFun (FHush u params fi b c p)) (bs "function<" ++ t ++ bs ">")
| sh_native f t : native_text f t -> shown h (VFun (FRust f)) t
| sh_error d c t : shown h c t ->
    shown h (VErr d c) (bs "error: " ++ [x22] ++ x_escape X d ++ [x22] ++ bs " (" ++ t ++ bs ")")
with entry_shown (h : heap) : value * value -> bytes -> Prop :=
| es_intro k v kt vt : shown h k kt -> shown h v vt -> entry_shown h (k, v) (kt ++ bs ": " ++ vt).

(** A value from which only finitely long paths through arrays, dicts and errors start *)
Inductive showable (h : heap) : value -> Prop :=
| sw_array l : (forall v, In v (arr_get h l) -> showable h v) -> showable h (VArr l)
| sw_dict l :
    (forall k v, In (k, v) (dict_entries h l) -> showable h k) ->
    (forall k v, In (k, v) (dict_entries h l) -> showable h v) -> showable h (VDict l)
| sw_error d c : showable h c -> showable h (VErr d c)
| sw_other v : match v with VArr _ | VDict _ | VErr _ _ => False | _ => True end -> showable h v.

(** ** Panics *)

(** The parts of a message *)
Inductive piece :=
| Say (t : bytes)             (* as it is *)
| Point (t : bytes)           (* highlighted *)
| Name (s : bytes)            (* the name of a module, highlighted *)
| Number (z : Z)
| Code (z : Z)                (* a number, highlighted *)
| What (v : value).           (* a value, highlighted *)

(** Where a panic happened, and what is said about it *)
Definition says (p : panic) : spos * list piece :=
  match p with
  | PStackOverflow q => (q, [Say (bs "stack overflow")])
  | PIntegerOverflow q => (q, [Say (bs "integer overflow")])
  | PDivisionByZero q => (q, [Say (bs "division by zero")])
  | PIndexOutOfBounds v q => (q, [Say (bs "index ("); What v; Say (bs ") out of bounds")])
  | PEmptyCollection q => (q, [Say (bs "collection is empty")])
  | PInvalidCall v q => (q, [Say (bs "attempt to call ("); What v; Say (bs "), which is not a function")])
  | PInvalidArgs a b q =>
      (q, [Say (bs "incorrect amount of function parameters -- supplied "); Number (Z.of_nat a);
           Say (bs ", expected "); Number (Z.of_nat b)])
  | PInvalidCondition v q => (q, [Say (bs "condition ("); What v; Say (bs ") is not a boolean")])
  | PTypeError v t q => (q, [Say (bs "value ("); What v; Say (bs ") has unexpected type, expected "); Say t])
  | PValueError v t q => (q, [Say (bs "invalid value ("); What v; Say (bs "), expected "); Say t])
  | PAssignToReadonlyField v q =>
      (q, [Say (bs "attempt to assign field ("); What v; Say (bs "), which is readonly")])
  | PInvalidCommandArgs s k q =>
      (q, [Say s; Say (bs " expansion resulted in "); Number (Z.of_nat k); Say (bs " items")])
  | PIo e q => (q, [Say e])
  | PUnsupportedFd z q => (q, [Say (bs "unsupported file descriptor ("); Code z; Say (bs ")")])
  | PInvalidPattern s q => (q, [Say (bs "pattern ("); Point (x_debug X s); Say (bs ") has invalid UTF-8")])
  | PAssertionFailed q => (q, [Say (bs "assertion failed")])
  | PImportFailed s q => (q, [Say (bs "failed to import module ("); Name s; Say (bs ")")])
  | PInvalidJoin q => (q, [Say (bs "attempt to call join more than once")])
  | PUser v q => (q, [Say (bs "std.panic("); What v; Say (bs ")")])
  end.

Inductive told (h : heap) : piece -> bytes -> Prop :=
| to_say t : told h (Say t) t
| to_point t u : tinted (bs "3") t u -> told h (Point t) u
| to_name s t u : tinted (bs "2") (x_escape X s) t -> tinted (bs "3") t u -> told h (Name s) u
| to_number z t : integer z t -> told h (Number z) t
| to_code z t u : integer z t -> tinted (bs "3") t u -> told h (Code z) u
| to_what v t u : shown h v t -> tinted (bs "3") t u -> told h (What v) u.

(** The message: [Panic in path (line 1, column 2): …] *)
Inductive message (h : heap) (p : panic) : bytes -> Prop :=
| me_intro head place ts :
    tinted (bs "1") (bs "Panic") head -> placed (fst (says p)) place -> Forall2 (told h) (snd (says p)) ts ->
    message h p (head ++ bs " in " ++ place ++ bs ": " ++ concat ts).

(** The values in the message can be shown. *)
Definition messageable (h : heap) (p : panic) : Prop :=
  forall v, In (What v) (snd (says p)) -> showable h v.

(** ** Printing *)

(** Strings and characters are printed as they are. *)
Inductive printed (h : heap) : value -> bytes -> Prop :=
| pr_string s : printed h (VStr s) s
| pr_char b : printed h (VByte b) [b]
| pr_other v t : match v with VStr _ | VByte _ => False | _ => True end -> shown h v t -> printed h v t.

(** Writing a text to the terminal, which can fail *)
Definition written (text : bytes) (p : spos) (h : heap) (w : W) : res (W := W) :=
  match x_write X text w with (None, w) => Val VNil (h, w) | (Some e, w) => Pan (PIo e p) (h, w) end.
End Show.
