(** Common definitions shared by the models: bytes, byte strings, source positions.

    Rust [u8] is [Coq.Init.Byte.byte] (exactly 256 inhabitants), Rust [&[u8]], [Vec<u8>],
    [Box<[u8]>] and [Str] are [list byte]. *)
From Coq Require Export List Bool ZArith NArith Lia.
From Coq Require Export Init.Byte Strings.Byte.
From Coq Require Import Strings.String Strings.Ascii.
Export ListNotations.

(** [&[u8]], as in src/syntax/source.rs 15-20 ([contents]). *)
Definition bytes := list byte.

(** Byte string written as a Coq string literal; only used to spell constants. As the byte
    literals of src/syntax/lexer/automata/word.rs 57-82. *)
Definition bs (s : string) : bytes := list_byte_of_string s.

(** Rust's derived equality on [u8] and [[u8]]. *)
Definition byte_eqb (a b : byte) : bool := Byte.eqb a b.

(** As compared by the [match] of src/syntax/lexer/automata/word.rs 57-82. *)
Fixpoint bytes_eqb (a b : bytes) : bool :=
  match a, b with
  | [], [] => true
  | x :: a', y :: b' => byte_eqb x y && bytes_eqb a' b'
  | _, _ => false
  end.

(** [u8::is_ascii_whitespace] of the Rust standard library: space, \t, \n, \x0C, \r. *)
Definition is_ascii_whitespace (c : byte) : bool :=
  match c with
  | x20 | x09 | x0a | x0c | x0d => true
  | _ => false
  end.

(** [u8::is_ascii_digit]. *)
Definition is_ascii_digit (c : byte) : bool :=
  let n := Byte.to_N c in (48 <=? n)%N && (n <=? 57)%N.

(** [u8::is_ascii_alphabetic]. *)
Definition is_ascii_alphabetic (c : byte) : bool :=
  let n := Byte.to_N c in
  ((65 <=? n) && (n <=? 90) || (97 <=? n) && (n <=? 122))%N.

(** [u8::is_ascii_alphanumeric]. *)
Definition is_ascii_alphanumeric (c : byte) : bool :=
  is_ascii_alphabetic c || is_ascii_digit c.

(** src/syntax/source.rs 52-56: [SourcePos].  The source path is dropped (one source at a
    time) and the [u32] counters are unbounded. *)
Record pos := mkpos { line : N; column : N }.

(** 64-bit signed range of Rust's [i64]. *)
Definition i64_min : Z := (-9223372036854775808)%Z.
(** The other end; std, used by src/syntax/lexer/automata/number.rs 90-110. *)
Definition i64_max : Z := 9223372036854775807%Z.
(** Whether [checked_add] and the like succeed (src/runtime/mod.rs 758-830). *)
Definition in_i64 (z : Z) : bool := (i64_min <=? z)%Z && (z <=? i64_max)%Z.

(** Two's complement wrap-around to [i64], what Rust's release build does on overflow. *)
Definition wrap64 (z : Z) : Z := ((z - i64_min) mod 18446744073709551616 + i64_min)%Z.

(** Parsing of a non-empty run of ASCII digits by Horner's rule, as in
    [core::num::from_str_radix]; the range check is made by the callers. Used by
    src/syntax/lexer/automata/number.rs 90-110 and src/runtime/lib/int.rs 41-43. *)
Definition digit_val (c : byte) : Z := Z.of_N (Byte.to_N c) - 48.
(** The same callers. *)
Definition digits_val (ds : bytes) : Z :=
  fold_left (fun acc c => acc * 10 + digit_val c)%Z ds 0%Z.
