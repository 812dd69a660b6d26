(** More about texts and std.exit: what C38 to C40 say of texts that were not made by the encoding
    functions and of an empty pattern, and C77. *)
From Coq Require Import Strings.String.
From Verif Require Import Base Lexer Ast Parser Program Value Text StdLib Exec Runtime Demo SpecText SpecCode CodeProofs.

(** C38.  Decoding reads two digits of either case for each byte, and nothing else. *)
Theorem C38_hex_decode : forall {W} (X : ext W) t n args p h w,
  (forall s, hex_of t s -> std_call X n args SHexDecode [VStr t] p h w = Val (VStr s) (h, w)) /\
  ((forall s, ~ hex_of t s) -> exists e, std_call X n args SHexDecode [VStr t] p h w = Val (VErr e (VStr t)) (h, w)).
Proof. exact @hex_decode_std. Qed.
Print Assumptions C38_hex_decode.

Example C38_decode_case : hex_of (bs "7E6a"%string) (bs "~j"%string) /\ (forall s, ~ hex_of (bs "7g"%string) s) /\
  demo 40 (bs "std.print(std.hex.decode(""7E6a"") ++ std.type(std.hex.decode(""7g"")) ++ std.type(std.hex.decode(""7"")))"%string) =
    Some (bs "~jerrorerror"%string, inl VNil).
Proof.
  split; [|split; [|vm_compute; reflexivity]].
  - apply (hx_byte _ _ 7 14); [left; reflexivity|right; reflexivity|reflexivity|]. apply (hx_byte _ _ 6 10); [left; reflexivity|left; reflexivity|reflexivity|constructor].
  - intros s H. remember (bs "7g"%string) as t eqn:E. destruct H as [|a b i j c t s A B _ _]; [discriminate|]. injection E as _ -> _.
    destruct B as [B|B]; do 17 (destruct j as [|j]; [discriminate B|]); discriminate B.
Qed.

(** C39.  The text is the string in groups of six bits; decoding accepts exactly these texts, also
    without some of the padding. *)
Theorem C39_base64_bits : forall {W} (X : ext W) s n args p h w,
  exists t, std_call X n args SBase64Encode [VStr s] p h w = Val (VStr t) (h, w) /\ base64_of t s.
Proof. exact @base64_encode_std. Qed.
Print Assumptions C39_base64_bits.
Theorem C39_base64_decode : forall {W} (X : ext W) t n args p h w,
  (forall s k, base64_of (t ++ repeat x3d k) s -> std_call X n args SBase64Decode [VStr t] p h w = Val (VStr s) (h, w)) /\
  ((forall s k, ~ base64_of (t ++ repeat x3d k) s) -> exists e, std_call X n args SBase64Decode [VStr t] p h w = Val (VErr e (VStr t)) (h, w)).
Proof. exact @base64_decode_std. Qed.
Print Assumptions C39_base64_decode.

(** The unused bits of [aHV=] are 01. *)
Example C39_decode_case : base64_of (bs "aHU="%string) (bs "hu"%string) /\
  demo 60 (bs "std.print(std.base64.decode(""aHU"") ++ std.type(std.base64.decode(""aHV="")) ++ std.type(std.base64.decode(""aH-_"")))"%string) =
    Some (bs "huerrorerror"%string, inl VNil).
Proof.
  split; [|vm_compute; reflexivity]. exists [26; 7; 20], 1. split; [reflexivity|]. split; [repeat (apply Forall_cons; [apply Nat.ltb_lt; reflexivity|]); apply Forall_nil|].
  split; [reflexivity|]. split; [apply Nat.leb_le; reflexivity|]. now exists 1.
Qed.

(** C40, for the empty pattern, which occurs at every offset: the pieces are the bytes, with an
    empty piece at each end. *)
Theorem C40_split_empty : forall {W} (X : ext W) s n args p h w,
  exists l h', std_call X n args SSplit [VStr s; VStr []] p h w = Val (VArr l) (h', w) /\
    arr_get h' l = VStr [] :: map (fun c => VStr [c]) s ++ [VStr []].
Proof. exact @split_empty_std. Qed.
Print Assumptions C40_split_empty.

Example C40_split_empty_case :
  demo 60 (bs "std.print(std.split(""ab"", """"))"%string) = Some (bs "[ """", ""a"", ""b"", """" ]"%string, inl VNil).
Proof. vm_compute. reflexivity. Qed.

(** C77.  [std.exit] ends the process with its argument, which has to fit in a byte; nothing has
    happened to the data or the world by then. *)
Theorem C77_exit : forall {W} (X : ext W) z n args p h w,
  ((0 <= z < 256)%Z -> std_call X n args SExit [VInt z] p h w = Exit z (h, w) /\ (z mod 256 = z)%Z) /\
  (~ (0 <= z < 256)%Z -> exists t, std_call X n args SExit [VInt z] p h w = Pan (PValueError (VInt z) t p) (h, w)).
Proof. exact @exit_law. Qed.
Print Assumptions C77_exit.

Example C77_case :
  (exists s, demo_run 60 (bs "std.print(1) std.catch(function () std.exit(255) end) std.print(2)"%string) = Some (Exit 255%Z s) /\ st_world s = bs "1"%string) /\
  (exists p, demo 60 (bs "std.exit(256)"%string) = Some ([], inr (PValueError (VInt 256) (bs "valid exit code"%string) p))).
Proof. split; [eexists; split; vm_compute; reflexivity|]. eexists. vm_compute. reflexivity. Qed.
