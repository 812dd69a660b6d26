(** Specifications of the text functions of the standard library, independent of the models. *)
From Verif Require Import Base.

(** [p] occurs in [s] at offset [i]. *)
Definition occurs_at (p s : bytes) (i : nat) : Prop := exists a b, s = a ++ p ++ b /\ length a = i.
Definition occurs (p s : bytes) : Prop := exists i, occurs_at p s i.

(** [a ++ p ++ b] where the occurrence of [p] after [a] is the first. *)
Definition first_occurrence (p a b : bytes) : Prop :=
  forall i, occurs_at p (a ++ p ++ b) i -> length a <= i.

(** The pieces between the occurrences of [p] found from left to right. *)
Inductive pieces (p : bytes) : bytes -> list bytes -> Prop :=
| pieces_last s : ~ occurs p s -> pieces p s [s]
| pieces_more a b r : first_occurrence p a b -> pieces p b r -> pieces p (a ++ p ++ b) (a :: r).

(** Pieces joined with a text between them. *)
Fixpoint join (r : bytes) (l : list bytes) : bytes :=
  match l with
  | [] => []
  | [x] => x
  | x :: l' => x ++ r ++ join r l'
  end.

(** A hexadecimal digit in lower case, with its value. *)
Definition lower_hex : list byte :=
  [x30; x31; x32; x33; x34; x35; x36; x37; x38; x39; x61; x62; x63; x64; x65; x66].
