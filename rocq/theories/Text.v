(** Models of the byte-string functions the standard library of Hush is made of: the crates
    hex 0.4, base64 0.13 and bstr 0.2, and the formatting and parsing of integers of the Rust
    library, as used by src/runtime/lib/*.rs.  The crates themselves are not in the
    repository; these are models of their documented behaviour. *)
From Coq Require Import Strings.String.
From Verif Require Import Base.

Local Open Scope N_scope.

(** Not in the code: the byte with a number *)
Definition byte_of (n : N) : byte := match Byte.of_N n with Some b => b | None => x00 end.

(** ** Hexadecimal: lib/hex.rs *)

(** [hex::encode]: two lower-case digits per byte. Used by lib/hex.rs 25. *)
Definition hex_digit (n : N) : byte := if n <? 10 then byte_of (48 + n) else byte_of (87 + n).
(** lib/hex.rs 25 *)
Fixpoint hex_encode (s : bytes) : bytes :=
  match s with
  | [] => []
  | c :: s' => hex_digit (Byte.to_N c / 16) :: hex_digit (Byte.to_N c mod 16) :: hex_encode s'
  end.

(** [hex::decode]: digits of either case; fails on an odd length or another character. Used by
    lib/hex.rs 41. *)
Definition hex_value (c : byte) : option N :=
  let n := Byte.to_N c in
  if (48 <=? n) && (n <=? 57) then Some (n - 48)
  else if (65 <=? n) && (n <=? 70) then Some (n - 55)
  else if (97 <=? n) && (n <=? 102) then Some (n - 87)
  else None.
(** lib/hex.rs 39-52 *)
Fixpoint hex_decode (s : bytes) : option bytes :=
  match s with
  | [] => Some []
  | [_] => None
  | a :: b :: s' =>
      match hex_value a, hex_value b, hex_decode s' with
      | Some x, Some y, Some r => Some (byte_of (16 * x + y) :: r)
      | _, _, _ => None
      end
  end.

(** ** Base64: lib/base64.rs *)

(** The standard alphabet. Used by lib/base64.rs 25. *)
Definition b64_digit (n : N) : byte :=
  if n <? 26 then byte_of (65 + n)
  else if n <? 52 then byte_of (71 + n)
  else if n <? 62 then byte_of (n - 4)
  else if n =? 62 then x2b else x2f.
(** The inverse of the alphabet, used by lib/base64.rs 41 *)
Definition b64_value (c : byte) : option N :=
  let n := Byte.to_N c in
  if (65 <=? n) && (n <=? 90) then Some (n - 65)
  else if (97 <=? n) && (n <=? 122) then Some (n - 71)
  else if (48 <=? n) && (n <=? 57) then Some (n + 4)
  else if n =? 43 then Some 62
  else if n =? 47 then Some 63
  else None.

(** [base64::encode]: padded with [=] to a multiple of four. lib/base64.rs 23-30. *)
Fixpoint b64_encode (s : bytes) : bytes :=
  match s with
  | [] => []
  | [a] =>
      let a := Byte.to_N a in
      [b64_digit (a / 4); b64_digit (a mod 4 * 16); x3d; x3d]
  | [a; b] =>
      let a := Byte.to_N a in let b := Byte.to_N b in
      [b64_digit (a / 4); b64_digit (a mod 4 * 16 + b / 16); b64_digit (b mod 16 * 4); x3d]
  | a :: b :: c :: s' =>
      let a := Byte.to_N a in let b := Byte.to_N b in let c := Byte.to_N c in
      b64_digit (a / 4) :: b64_digit (a mod 4 * 16 + b / 16)
        :: b64_digit (b mod 16 * 4 + c / 64) :: b64_digit (c mod 64) :: b64_encode s'
  end.

(** [base64::decode]: padding may be missing or incomplete, the unused low bits of the last
    digit have to be zero. lib/base64.rs 39-52. *)
Definition is_pad (c : byte) : bool := byte_eqb c x3d.
(** lib/base64.rs 39-52 *)
Fixpoint b64_decode (s : bytes) : option bytes :=
  match s with
  | [] => Some []
  | a :: b :: c :: d :: s' =>
      if is_pad c then
        if is_pad d then
          match s', b64_value a, b64_value b with
          | [], Some a, Some b =>
              if b mod 16 =? 0 then Some [byte_of (a * 4 + b / 16)] else None
          | _, _, _ => None
          end
        else None
      else if is_pad d then
        match s', b64_value a, b64_value b, b64_value c with
        | [], Some a, Some b, Some c =>
            if c mod 4 =? 0
            then Some [byte_of (a * 4 + b / 16); byte_of (b mod 16 * 16 + c / 4)] else None
        | _, _, _, _ => None
        end
      else
        match b64_value a, b64_value b, b64_value c, b64_value d, b64_decode s' with
        | Some a, Some b, Some c, Some d, Some r =>
            Some (byte_of (a * 4 + b / 16) :: byte_of (b mod 16 * 16 + c / 4)
                    :: byte_of (c mod 4 * 64 + d) :: r)
        | _, _, _, _, _ => None
        end
  | [a; b; c] =>
      if is_pad c then
        match b64_value a, b64_value b with
        | Some a, Some b => if b mod 16 =? 0 then Some [byte_of (a * 4 + b / 16)] else None
        | _, _ => None
        end
      else
        match b64_value a, b64_value b, b64_value c with
        | Some a, Some b, Some c =>
            if c mod 4 =? 0
            then Some [byte_of (a * 4 + b / 16); byte_of (b mod 16 * 16 + c / 4)] else None
        | _, _, _ => None
        end
  | [a; b] =>
      match b64_value a, b64_value b with
      | Some a, Some b => if b mod 16 =? 0 then Some [byte_of (a * 4 + b / 16)] else None
      | _, _ => None
      end
  | [_] => None
  end.

(** ** Searching: lib/split.rs, lib/replace.rs *)

(** [starts_with] of slices, which bstr's [find] tests *)
Fixpoint prefix_of (p s : bytes) : bool :=
  match p, s with
  | [], _ => true
  | x :: p', y :: s' => byte_eqb x y && prefix_of p' s'
  | _ :: _, [] => false
  end.

(** bstr's [find]: offset of the first occurrence. Used by lib/split.rs 22-38 and lib/replace.rs
    23-39. *)
Fixpoint find (p s : bytes) : option nat :=
  if prefix_of p s then Some O
  else match s with
       | [] => None
       | _ :: s' => option_map S (find p s')
       end.

(** bstr's [split_str]: the pieces between the occurrences given by [find_iter], which looks
    for the next one after the end of the last, and with an empty pattern finds one at every
    offset.  [n] bounds the number of occurrences; the length of [s] is enough. lib/split.rs
    22-38. *)
Fixpoint split_go (n : nat) (p s : bytes) : list bytes :=
  match n with
  | O => [s]
  | S n' =>
      match find p s with
      | None => [s]
      | Some i => firstn i s :: split_go n' p (skipn (i + length p) s)
      end
  end.
(** lib/split.rs 22-38; an empty pattern occurs before every byte and at the end *)
Definition split_str (s p : bytes) : list bytes :=
  match p with
  | [] => [] :: map (fun c => [c]) s ++ [[]]
  | _ => split_go (length s) p s
  end.

(** bstr's [replace]: copies what is between the occurrences and writes the replacement at
    each. lib/replace.rs 23-39. *)
Fixpoint replace_go (n : nat) (p r s : bytes) : bytes :=
  match n with
  | O => s
  | S n' =>
      match find p s with
      | None => s
      | Some i => firstn i s ++ r ++ replace_go n' p r (skipn (i + length p) s)
      end
  end.
(** lib/replace.rs 23-39; an empty pattern occurs before every byte and at the end *)
Definition replace_str (s p r : bytes) : bytes :=
  match p with
  | [] => r ++ flat_map (fun c => c :: r) s
  | _ => replace_go (length s) p r s
  end.

(** lib/substr.rs 19-24.  [start as usize] and [len as usize] wrap negative numbers, their sum
    wraps in a release build (in a debug build it stops the process).  [get(start..end)] is
    [None] when the range is reversed or leaves the string. *)
Definition usize (z : Z) : Z := (z mod 18446744073709551616)%Z.
(** lib/substr.rs 19-24 *)
Definition substr (s : bytes) (start len : Z) : option bytes :=
  let from := usize start in
  let to := usize (from + usize len) in
  if ((from <=? to) && (to <=? Z.of_nat (length s)))%Z
  then Some (firstn (Z.to_nat (to - from)) (skipn (Z.to_nat from) s))
  else None.

(** ** Integers and text: value/fmt.rs 127, lib/int.rs *)

(** Decimal digits, most significant first.  [n] bounds their number. value/fmt.rs 127. *)
Fixpoint digits_go (n : nat) (x : N) (acc : bytes) : bytes :=
  match n with
  | O => acc
  | S n' =>
      let acc' := byte_of (48 + x mod 10) :: acc in
      if x / 10 =? 0 then acc' else digits_go n' (x / 10) acc'
  end.
(** value/fmt.rs 127: [Display] for an unsigned number *)
Definition digits_of (x : N) : bytes := digits_go (S (N.size_nat x)) x [].

(** [Display for i64]. value/fmt.rs 127. *)
Definition int_text (z : Z) : bytes :=
  if (z <? 0)%Z then x2d :: digits_of (Z.to_N (- z)) else digits_of (Z.to_N z).

(** [str::parse::<i64>]: an optional sign and digits, within the range of [i64]. *)
Definition all_digits (s : bytes) : bool :=
  match s with [] => false | _ => forallb is_ascii_digit s end.
(** lib/int.rs 30-46: the overflow of [parse] *)
Definition in_range (z : Z) : option Z := if in_i64 z then Some z else None.
(** lib/int.rs 30-46 *)
Definition parse_int (s : bytes) : option Z :=
  match s with
  | x2d :: s' => if all_digits s' then in_range (- digits_val s') else None
  | x2b :: s' => if all_digits s' then in_range (digits_val s') else None
  | _ => if all_digits s then in_range (digits_val s) else None
  end.

(** ** White space: [ByteSlice::trim] of bstr, used by lib/trim.rs 23-28

    The automata of bstr accept the UTF-8 encodings of the characters with the Unicode property
    White_Space; they are written out by their length here.  The text need not be UTF-8. *)
Definition white1 (a : byte) : bool :=
  let n := Byte.to_N a in (9 <=? n) && (n <=? 13) || (n =? 32).
(** See above, for two bytes *)
Definition white2 (a b : byte) : bool := byte_eqb a xc2 && (byte_eqb b x85 || byte_eqb b xa0).
(** See above, for three bytes *)
Definition white3 (a b c : byte) : bool :=
  let n := Byte.to_N c in
  byte_eqb a xe1 && byte_eqb b x9a && byte_eqb c x80
  || byte_eqb a xe2 && byte_eqb b x80 && ((128 <=? n) && (n <=? 138) || (n =? 168) || (n =? 169) || (n =? 175))
  || byte_eqb a xe2 && byte_eqb b x81 && byte_eqb c x9f
  || byte_eqb a xe3 && byte_eqb b x80 && byte_eqb c x80.

(** [trim_start]. lib/trim.rs 22-35. *)
Fixpoint trim_start (s : bytes) : bytes :=
  match s with
  | [] => []
  | a :: s1 =>
      if white1 a then trim_start s1
      else
        match s1 with
        | [] => s
        | b :: s2 =>
            if white2 a b then trim_start s2
            else
              match s2 with
              | [] => s
              | c :: s3 => if white3 a b c then trim_start s3 else s
              end
        end
  end.

(** [trim_end]: the automaton runs backwards from the end; the text is given in reverse.
    lib/trim.rs 22-35. *)
Fixpoint trim_back (s : bytes) : bytes :=
  match s with
  | [] => []
  | c :: s1 =>
      if white1 c then trim_back s1
      else
        match s1 with
        | [] => s
        | b :: s2 =>
            if white2 b c then trim_back s2
            else
              match s2 with
              | [] => s
              | a :: s3 => if white3 a b c then trim_back s3 else s
              end
        end
  end.
(** lib/trim.rs 22-35 *)
Definition trim (s : bytes) : bytes := rev (trim_back (rev (trim_start s))).
