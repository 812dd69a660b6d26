(** Properties of JSON and of bytes that are not text: C62 to C64. *)
From Coq Require Import Strings.String Lia.
From Verif Require Import Base Lexer Ast Program Value Json StdLib Exec Runtime Demo SpecText SpecLib SpecRun SpecShow SpecJson Utf8Proofs JsonFactsProofs PrintProofs.

(** C62.  Encoding: the text of the tree of the value, or a panic for values that have none *)
Theorem C62_encode : forall {W} (X : ext W) ra v p h w, some_order X ->
  (forall r, (exists n, std_call X n ra SJsonEncode [v] p h w = r /\ r <> Fuel) ->
     (exists j, encodes (x_order X) h v j /\ r = Val (VStr (x_json_text X j)) (h, w)) \/ (foreign h v /\ r = refused v p h w)) /\
  (forall j, encodes (x_order X) h v j -> exists n, std_call X n ra SJsonEncode [v] p h w = Val (VStr (x_json_text X j)) (h, w)) /\
  (showable h v -> exists n, std_call X n ra SJsonEncode [v] p h w <> Fuel) /\
  (foreign h v -> forall j, ~ encodes (x_order X) h v j).
Proof. exact @encode_call. Qed.
Print Assumptions C62_encode.

(** Decoding: new collections with the contents of the tree, or an error *)
Theorem C62_decode : forall {W} (X : ext W) n ra s p h w,
  (forall j, x_json_parse X s = Some j -> decodable j ->
     exists v h', std_call X n ra SJsonDecode [VStr s] p h w = Val v (h', w) /\ decodes h' j v /\ adds_data h v h') /\
  ((forall j, x_json_parse X s = Some j -> ~ decodable j) ->
     std_call X n ra SJsonDecode [VStr s] p h w = Val (VErr (x_json_error X s) (VStr s)) (h, w)).
Proof. exact @decode_call. Qed.
Print Assumptions C62_decode.

Example C62_case :
  some_order demo_ext /\
  demo 60 (bs "std.json.encode(@[ a: [1, 'x', nil], b: true])"%string) = Some ([], inl (VStr (bs "{""a"":[1,""x"",null],""b"":true}"%string))) /\
  demo_run 60 (bs "std.json.encode([1, std.len])"%string)
  = Some (Pan (PValueError (VArr 1) (bs "nil, bool, byte, int, float, string, array or dict"%string) (mkspos (bs "main"%string) (mkpos 1 15)))
              (match demo_run 60 (bs "std.json.encode([1, std.len])"%string) with Some (Pan _ s) => s | _ => initial [] [] end)) /\
  demo_json_parse (bs "{""a"":1,""a"":[2]}"%string) = Some (JObj [(bs "a"%string, JInt 1); (bs "a"%string, JArr [JInt 2])]) /\
  decodable (JObj [(bs "a"%string, JInt 1); (bs "a"%string, JArr [JInt 2])]) /\
  demo_json_parse (bs "[9223372036854775808]"%string) = Some (JArr [JInt 9223372036854775808]) /\
  ~ decodable (JArr [JInt 9223372036854775808]).
Proof.
  split; [intros d; apply Permutation.Permutation_refl|]. split; [vm_compute; reflexivity|]. split; [vm_compute; reflexivity|]. split; [vm_compute; reflexivity|].
  split; [repeat constructor; cbn; discriminate|]. split; [vm_compute; reflexivity|]. intros D. inversion D as [| | | | |? F|]; subst. inversion F as [|? ? E]; subst. inversion E as [| |? L| | | |]; subst. now destruct L.
Qed.

(** C63.  What is encoded and decoded again is a copy, and equal, if the JSON library reads what
    it has written.  The value has no bytes, no infinite or undefined numbers and only text. *)
Theorem C63_round_trip : forall {W} (X : ext W) n ra p h w v j, some_order X ->
  portable h v -> encodes (x_order X) h v j -> x_json_parse X (x_json_text X j) = Some j ->
  exists v' h', std_call X n ra SJsonDecode [VStr (x_json_text X j)] p h w = Val v' (h', w) /\
    alike h' v v' /\ adds_data h v' h' /\ exists m, eqv h' m false v v' = Known true.
Proof. exact @round_trip. Qed.
Print Assumptions C63_round_trip.

Theorem C63_encodable : forall {W} (X : ext W) h, some_order X -> forall v, showable h v -> portable h v ->
  exists j, encodes (x_order X) h v j.
Proof. exact @portable_encodes. Qed.
Print Assumptions C63_encodable.

Definition letters : heap := mkheap [] [[VInt 7; VNil]] [[(VStr (bs "a"%string), VArr 0); (VStr (bs "b"%string), VBool true)]] [].
Definition letters_json : json := JObj [(bs "a"%string, JArr [JInt 7; JNull]); (bs "b"%string, JBool true)].
Example C63_case :
  some_order demo_ext /\ portable letters (VDict 0) /\ showable letters (VDict 0) /\ encodes (x_order demo_ext) letters (VDict 0) letters_json /\
  x_json_parse demo_ext (x_json_text demo_ext letters_json) = Some letters_json.
Proof.
  split; [intros d; apply Permutation.Permutation_refl|]. split; [|split; [|split; [|vm_compute; reflexivity]]].
  - eapply po_dict; [reflexivity| |].
    + repeat constructor; cbn; intuition discriminate.
    + repeat constructor; try (apply letter; reflexivity). eapply po_array; [reflexivity|]. repeat constructor.
  - apply sw_dict; cbn; intros k v [[= <- <-]|[[= <- <-]|[]]]; try (apply sw_other; exact I). apply sw_array. cbn. intros v [<-|[<-|[]]]; apply sw_other; exact I.
  - apply encodes_iff. exists 9. vm_compute. reflexivity.
Qed.

(** C64.  Bytes that are not text are repaired. *)
Theorem C64_repair : forall s,
  (forall t, repaired s t <-> t = lossy s) /\ text (lossy s) /\ (lossy s = s <-> text s).
Proof. exact repair. Qed.
Print Assumptions C64_repair.

(** The beginning of a character of three bytes, a byte that begins none, and text *)
Example C64_case : lossy [x61; xe2; x82; xff; xc3; xa9] = [x61; xef; xbf; xbd; xef; xbf; xbd; xc3; xa9].
Proof. vm_compute. reflexivity. Qed.
