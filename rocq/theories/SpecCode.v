(** What hexadecimal and base64 texts stand for, independent of the models. *)
From Coq Require Import Strings.String.
From Verif Require Import Base SpecText.

(** ** Hexadecimal *)
Definition upper_hex : list byte :=
  [x30; x31; x32; x33; x34; x35; x36; x37; x38; x39; x41; x42; x43; x44; x45; x46].
Definition hex_stands (c : byte) (i : nat) : Prop := nth_error lower_hex i = Some c \/ nth_error upper_hex i = Some c.
(** The text [t] is the string [s], two digits of either case for each byte. *)
Inductive hex_of : bytes -> bytes -> Prop :=
| hx_end : hex_of [] []
| hx_byte a b i j c t s : hex_stands a i -> hex_stands b j -> Byte.to_N c = N.of_nat (16 * i + j) -> hex_of t s ->
    hex_of (a :: b :: t) (c :: s).

(** ** Base64 *)
Definition alphabet : list byte :=
  list_byte_of_string "ABCDEFGHIJKLMNOPQRSTUVWXYZabcdefghijklmnopqrstuvwxyz0123456789+/"%string.
(** The lowest [k] bits of [n], highest first *)
Fixpoint bits (k : nat) (n : N) : list bool :=
  match k with O => [] | S k => N.testbit n (N.of_nat k) :: bits k n end.
(** The bits of [s] are cut into groups of six, the last filled with zeros; each is one character of
    the alphabet, and [=] fills the text up to a multiple of four. *)
Definition base64_of (t s : bytes) : Prop :=
  exists ds pad, t = map (fun d => nth d alphabet x00) ds ++ repeat x3d pad /\ Forall (fun d => d < 64) ds /\
    flat_map (fun d => bits 6 (N.of_nat d)) ds = flat_map (fun c => bits 8 (Byte.to_N c)) s ++ repeat false (2 * pad) /\
    pad <= 2 /\ exists k, length t = 4 * k.
