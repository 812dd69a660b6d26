(** What JSON is made of values, and which bytes are text. *)
From Coq Require Import Strings.String Sorting.Permutation.
From Verif Require Import Base Ast Value Json StdLib SpecShow.

(** ** Characters *)

(** The numbers of characters *)
Definition scalar (c : N) : Prop := (c < 55296 \/ 57344 <= c < 1114112)%N.

Inductive text : bytes -> Prop :=
| tx_end : text []
| tx_char c r : scalar c -> text r -> text (utf8 c ++ r).

(** The bytes are the beginning of a character, but not all of it. *)
Definition begun (p : bytes) : Prop := exists c q, scalar c /\ q <> [] /\ utf8 c = p ++ q.

(** [repaired s t]: in [t] the longest possible beginnings of characters, and the bytes that begin
    none, are replaced by U+FFFD. *)
Inductive repaired : bytes -> bytes -> Prop :=
| rp_end : repaired [] []
| rp_char c r t : scalar c -> repaired r t -> repaired (utf8 c ++ r) (utf8 c ++ t)
| rp_bad p r t :
    p <> [] -> begun p \/ length p = 1 ->
    (forall c q, scalar c -> p ++ r <> utf8 c ++ q) ->
    (forall p' q, begun p' -> p ++ r = p' ++ q -> length p' <= length p) ->
    repaired r t -> repaired (p ++ r) (utf8 65533 ++ t).

(** ** Values *)
Definition a_number (f : spec_float) : Prop := f <> S754_nan /\ forall negative, f <> S754_infinity negative.

Section Json.
Variable order : list (value * value) -> list (value * value).

(** The tree of a value.  Bytes are strings, floats without a value are [null], and the entries of
    a dict come in the order of the hash map. *)
Inductive encodes (h : heap) : value -> json -> Prop :=
| en_nil : encodes h VNil JNull
| en_bool b : encodes h (VBool b) (JBool b)
| en_int z : encodes h (VInt z) (JInt z)
| en_finite f : a_number f -> encodes h (VFloat f) (JFloat f)
| en_special f : ~ a_number f -> encodes h (VFloat f) JNull
| en_byte b t : repaired [b] t -> encodes h (VByte b) (JStr t)
| en_string s t : repaired s t -> encodes h (VStr s) (JStr t)
| en_array l js : Forall2 (encodes h) (arr_get h l) js -> encodes h (VArr l) (JArr js)
| en_dict l es : Forall2 (encodes_entry h) (order (dict_entries h l)) es -> encodes h (VDict l) (JObj es)
with encodes_entry (h : heap) : value * value -> bytes * json -> Prop :=
| ee_intro s t v j : repaired s t -> encodes h v j -> encodes_entry h (VStr s, v) (t, j).
End Json.

(** The value holds, at some depth, something that JSON does not have. *)
Inductive foreign (h : heap) : value -> Prop :=
| fo_function f : foreign h (VFun f)
| fo_error d c : foreign h (VErr d c)
| fo_array l v : In v (arr_get h l) -> foreign h v -> foreign h (VArr l)
| fo_value l k v : In (k, v) (dict_entries h l) -> foreign h v -> foreign h (VDict l)
| fo_key l k v : In (k, v) (dict_entries h l) -> (forall s, k <> VStr s) -> foreign h (VDict l).

(** Values that come back: no bytes, only numbers that are numbers, only text in strings, and
    dicts with distinct keys. *)
Inductive portable (h : heap) : value -> Prop :=
| po_nil : portable h VNil
| po_bool b : portable h (VBool b)
| po_int z : in_i64 z = true -> portable h (VInt z)
| po_float f : a_number f -> portable h (VFloat f)
| po_string s : text s -> portable h (VStr s)
| po_array l vs : nth_error (h_arrs h) l = Some vs -> Forall (portable h) vs -> portable h (VArr l)
| po_dict l es :
    nth_error (h_dicts h) l = Some es -> NoDup (map fst es) -> Forall (portable_entry h) es -> portable h (VDict l)
with portable_entry (h : heap) : value * value -> Prop :=
| pe_intro s v : text s -> portable h v -> portable_entry h (VStr s, v).

(** Which trees the decoder takes: those without integers above the range of [i64]. *)
Inductive decodable : json -> Prop :=
| de_null : decodable JNull
| de_bool b : decodable (JBool b)
| de_int z : (z <= i64_max)%Z -> decodable (JInt z)
| de_float f : decodable (JFloat f)
| de_string s : decodable (JStr s)
| de_array js : Forall decodable js -> decodable (JArr js)
| de_object es : Forall (fun e => decodable (snd e)) es -> decodable (JObj es).

(** The value of a tree.  The last of several entries with one key counts. *)
Inductive decodes (h : heap) : json -> value -> Prop :=
| dc_null : decodes h JNull VNil
| dc_bool b : decodes h (JBool b) (VBool b)
| dc_int z : decodes h (JInt z) (VInt z)
| dc_float f : decodes h (JFloat f) (VFloat f)
| dc_string s : decodes h (JStr s) (VStr s)
| dc_array js l vs :
    nth_error (h_arrs h) l = Some vs -> Forall2 (decodes h) js vs -> decodes h (JArr js) (VArr l)
| dc_object es l d :
    nth_error (h_dicts h) l = Some d -> NoDup (map fst d) ->
    Forall (fun e : value * value => exists k, fst e = VStr k) d ->
    (forall k, In (VStr k) (map fst d) -> In k (map fst es)) ->
    (forall before k j after, es = before ++ (k, j) :: after -> ~ In k (map fst after) ->
       exists v, In (VStr k, v) d /\ decodes h j v) ->
    decodes h (JObj es) (VDict l).

(** One value is a copy of the other. *)
Inductive alike (h : heap) : value -> value -> Prop :=
| ak_same v : (match v with VNil | VBool _ | VInt _ | VFloat _ | VStr _ => True | _ => False end) -> alike h v v
| ak_array l l' : Forall2 (alike h) (arr_get h l) (arr_get h l') -> alike h (VArr l) (VArr l')
| ak_dict l l' es :
    Permutation es (dict_entries h l') -> Forall2 (alike_entry h) (dict_entries h l) es -> alike h (VDict l) (VDict l')
with alike_entry (h : heap) : value * value -> value * value -> Prop :=
| ake_intro k v v' : alike h v v' -> alike_entry h (k, v) (k, v').

(** The panic of the encoder *)
Definition refused {W} (v : value) (p : spos) (h : heap) (w : W) : res (W := W) :=
  Pan (PValueError v (bs "nil, bool, byte, int, float, string, array or dict") p) (h, w).
