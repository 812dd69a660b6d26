(** Model of the conversion between values and JSON: src/runtime/lib/json.rs.  The trees are what
    the [Serializer] and [Deserializer] of serde_json are given and give; their text is outside of
    the model. *)
From Coq Require Import Strings.String.
From Verif Require Import Base Lexer Ast Program Value.

(** ** [String::from_utf8_lossy], which json.rs 179 and 182 apply to bytes and strings *)

(** U+FFFD. The character put by [String::from_utf8_lossy] (json.rs 179 and 182). *)
Definition replacement : bytes := [xef; xbf; xbd].

(** The ranges of the bytes that have to follow the first byte of a character; [None]: no
    character begins like this. [String::from_utf8_lossy] (json.rs 179 and 182). *)
Definition follow (c : byte) : option (list (N * N)) :=
  let n := Byte.to_N c in
  let t := (128, 191)%N in
  (if n <? 128 then Some []
   else if n <? 194 then None
   else if n <? 224 then Some [t]
   else if n =? 224 then Some [(160, 191); t]
   else if n =? 237 then Some [(128, 159); t]
   else if n <? 240 then Some [t; t]
   else if n =? 240 then Some [(144, 191); t; t]
   else if n <? 244 then Some [t; t; t]
   else if n =? 244 then Some [(128, 143); t; t]
   else None)%N.

(** [pending]: the bytes of a character of which bytes in [rs] are missing.  What cannot be
    continued is replaced as a whole. [String::from_utf8_lossy] (json.rs 179 and 182). *)
Fixpoint lossy_from (pending : bytes) (rs : list (N * N)) (s : bytes) : bytes :=
  match s with
  | [] => match pending with [] => [] | _ => replacement end
  | c :: s' =>
      let start :=
        match follow c with
        | None => replacement ++ lossy_from [] [] s'
        | Some [] => c :: lossy_from [] [] s'
        | Some rs => lossy_from [c] rs s'
        end in
      match rs with
      | [] => start
      | (lo, hi) :: rs' =>
          if ((lo <=? Byte.to_N c) && (Byte.to_N c <=? hi))%N then
            match rs' with
            | [] => pending ++ c :: lossy_from [] [] s'
            | _ => lossy_from (pending ++ [c]) rs' s'
            end
          else replacement ++ start
      end
  end.
(** [String::from_utf8_lossy] (json.rs 179 and 182) *)
Definition lossy (s : bytes) : bytes := lossy_from [] [] s.

(** ** Trees *)

(** Integers are those of [i64] and [u64]. *)
Inductive json :=
| JNull
| JBool (b : bool)
| JInt (z : Z)
| JFloat (f : spec_float)
| JStr (s : bytes)
| JArr (l : list json)
| JObj (l : list (bytes * json)).

(** Floats that serde_json writes as numbers (json.rs 178) *)
Definition finite (f : spec_float) : bool :=
  match f with S754_zero _ | S754_finite _ _ _ => true | _ => false end.

(** The items of a sequence, until one cannot be converted. json.rs 183-199. *)
Definition each_json {A B} (f : A -> walk (option B)) : list A -> walk (option (list B)) :=
  fix go l :=
    match l with
    | [] => Known (Some [])
    | x :: l' =>
        wbind (f x) (fun r =>
        match r with
        | None => Known None
        | Some y => wbind (go l') (fun r => Known (option_map (cons y) r))
        end)
    end.

(** json.rs 171-199; [order] is the order in which a [HashMap] is iterated.  serde_json writes
    floats that are not finite as [null]. *)
Fixpoint to_json (order : list (value * value) -> list (value * value)) (n : nat) (h : heap)
  (v : value) : walk (option json) :=
  match n with
  | O => Deep
  | S n' =>
      match v with
      | VNil => Known (Some JNull)
      | VBool b => Known (Some (JBool b))
      | VByte b => Known (Some (JStr (lossy [b])))
      | VInt z => Known (Some (JInt z))
      | VFloat f => Known (Some (if finite f then JFloat f else JNull))
      | VStr s => Known (Some (JStr (lossy s)))
      | VArr l =>
          wbind (each_json (to_json order n' h) (arr_get h l)) (fun r =>
          Known (option_map JArr r))
      | VDict l =>
          wbind (each_json (fun e : value * value =>
                   match fst e with
                   | VStr s =>
                       wbind (to_json order n' h (snd e)) (fun r =>
                       Known (option_map (fun j => (lossy s, j)) r))
                   | _ => Known None
                   end) (order (dict_entries h l))) (fun r =>
          Known (option_map JObj r))
      | VFun _ | VErr _ _ => Known None
      end
  end.

(** [HashMap::insert] for a string. json.rs 146-164. *)
Fixpoint insert_key (k : bytes) (v : value) (d : list (value * value)) : list (value * value) :=
  match d with
  | [] => [(VStr k, v)]
  | (VStr k', w) :: d' =>
      if bytes_eqb k k' then (VStr k', v) :: d' else (VStr k', w) :: insert_key k v d'
  | e :: d' => e :: insert_key k v d'
  end.

(** json.rs 72-169; [None] is the error of [visit_u64].  The collections allocated before it are
    dropped. *)
Fixpoint from_json (j : json) (h : heap) : option (value * heap) :=
  match j with
  | JNull => Some (VNil, h)
  | JBool b => Some (VBool b, h)
  | JInt z => if (z <=? i64_max)%Z then Some (VInt z, h) else None
  | JFloat f => Some (VFloat f, h)
  | JStr s => Some (VStr s, h)
  | JArr l =>
      (fix go l acc h :=
         match l with
         | [] => Some (new_arr h acc)
         | x :: l' =>
             match from_json x h with
             | None => None
             | Some (v, h) => go l' (acc ++ [v]) h
             end
         end) l [] h
  | JObj l =>
      (fix go l acc h :=
         match l with
         | [] => Some (new_dict h acc)
         | (k, x) :: l' =>
             match from_json x h with
             | None => None
             | Some (v, h) => go l' (insert_key k v acc) h
             end
         end) l [] h
  end.
