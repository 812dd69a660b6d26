(** Properties of the standard library as a whole: C65 to C70. *)
From Coq Require Import Strings.String Lia.
From Verif Require Import Base Lexer Ast Program Value Json StdLib Exec Runtime Demo SpecSig TextProofs SigProofs ConvProofs ContProofs.

(** C65.  Functions called with the wrong number or kinds of arguments panic before anything else
    happens, and others do not complain about them. *)
Theorem C65_number : forall {W} (X : ext W) n ra f args p h w, direct f -> length args <> length (takes f args) ->
  std_call X n ra f args p h w = Pan (PInvalidArgs (length args) (length (takes f args)) p) (h, w).
Proof. exact @count_wrong. Qed.
Print Assumptions C65_number.

Theorem C65_refused : forall {W} (X : ext W) n ra f args p h w, direct f -> ~ fitting f args ->
  exists q, std_call X n ra f args p h w = Pan q (h, w).
Proof. exact @unfitting. Qed.
Print Assumptions C65_refused.

Theorem C65_accepted : forall {W} (X : ext W) n ra f args p h w q s, direct f -> f <> STypecheck -> fitting f args ->
  std_call X n ra f args p h w = Pan q s -> ~ about_arguments q.
Proof. exact @fitting_fine. Qed.
Print Assumptions C65_accepted.

Example C65_case :
  direct SExport /\ length [VStr []] <> length (takes SExport [VStr []]) /\
  ~ fitting SExport [VStr []; VInt 1] /\ fitting SPop [VArr 0] /\
  std_call demo_ext 9 VNil SPop [VArr 0] (mkspos [] (mkpos 1 2)) (mkheap [] [[]] [] []) [] = Pan (PEmptyCollection (mkspos [] (mkpos 1 2))) ((mkheap [] [[]] [] []), []) /\
  demo 60 (bs "std.println(""x"") std.contains(""x"", 1, 2)"%string)
  = Some (bs "x
"%string, inr (PInvalidArgs 3 2 (mkspos (bs "main"%string) (mkpos 1 29)))).
Proof.
  split; [split; discriminate|]. split; [discriminate|]. split; [intros F; inversion F as [|? ? ? ? _ F']; inversion F' as [|? ? ? ? E]; discriminate E|].
  split; [repeat constructor|]. split; vm_compute; reflexivity.
Qed.

(** C66.  The panic names the first wrong argument and what it should have been. *)
Theorem C66_first_wrong_partial : forall {W} (X : ext W) n ra f args p h w v t,
  direct f -> f <> SSubstr -> f <> SRandInt -> length args = length (takes f args) ->
  first_wrong (takes f args) args v t -> std_call X n ra f args p h w = Pan (PTypeError v t p) (h, w).
Proof. exact @type_wrong. Qed.
Print Assumptions C66_first_wrong_partial.

(** The first wrong argument of [std.substr] is not reported if there are two, and
    [std.randint] always reports its first argument. *)
Theorem C66_first_wrong_refuted : exists f args args' p v t v' t',
  direct f /\ first_wrong (takes f args) args v t /\ length args = length (takes f args) /\
  (forall W (X : ext W) n ra h w, std_call X n ra f args p h w = Pan (PInvalidArgs (length args) (length (takes f args)) p) (h, w)) /\
  direct SRandInt /\ first_wrong (takes SRandInt args') args' v' t' /\ length args' = length (takes SRandInt args') /\
  (forall W (X : ext W) n ra h w, exists u, std_call X n ra SRandInt args' p h w = Pan (PTypeError u t' p) (h, w) /\ u <> v').
Proof.
  exists SSubstr, [VInt 1; VNil; VInt 2], [VInt 1; VNil], (mkspos [] (mkpos 1 1)), (VInt 1), (bs "string"%string), VNil, (bs "int"%string).
  split; [split; discriminate|]. split; [now apply (fw_here a_string)|]. split; [reflexivity|]. split; [reflexivity|]. split; [split; discriminate|].
  split; [apply (fw_later an_int); [reflexivity|now apply (fw_here an_int)]|]. split; [reflexivity|]. intros. exists (VInt 1). split; [reflexivity|discriminate].
Qed.
Print Assumptions C66_first_wrong_refuted.

Example C66_case :
  first_wrong (takes SReplace [VStr []; VInt 1; VNil]) [VStr []; VInt 1; VNil] (VInt 1) (bs "string"%string) /\
  demo 60 (bs "std.replace("""", 1, nil)"%string) = Some ([], inr (PTypeError (VInt 1) (bs "string"%string) (mkspos (bs "main"%string) (mkpos 1 11)))) /\
  demo 60 (bs "std.substr(1, nil, 2)"%string) = Some ([], inr (PInvalidArgs 3 3 (mkspos (bs "main"%string) (mkpos 1 10)))) /\
  demo 60 (bs "std.randint(1, nil)"%string) = Some ([], inr (PTypeError (VInt 1) (bs "int"%string) (mkspos (bs "main"%string) (mkpos 1 11)))).
Proof. split; [apply (fw_later a_string); [reflexivity|now apply (fw_here a_string)]|]. repeat split; vm_compute; reflexivity. Qed.

(** C67.  What a call may change *)
Theorem C67_leaves : forall {W} (X : ext W) n ra f args p h w, left_as f args h w (std_call X n ra f args p h w).
Proof. exact @call_leaves. Qed.
Print Assumptions C67_leaves.

Example C67_case :
  ~ changes SSplit [VStr (bs "a"%string); VStr (bs "b"%string)] 0 /\ ~ changes SPush [VArr 1; VArr 0] 0 /\ ~ reaches_out SSort /\
  demo 90 (bs "let a = [3, 1] let b = [a, 2] std.push(b, a) std.sort(a) std.println([a, b])"%string) = Some (bs "[ [ 1, 3 ], [ [ 1, 3 ], 2, [ 1, 3 ] ] ]
"%string, inl VNil).
Proof.
  split; [intros ([|[|]] & _); discriminate|]. split; [intros (_ & r & E); discriminate|]. split; [cbn; intuition discriminate|]. vm_compute. reflexivity.
Qed.

(** C68.  Containers *)
Theorem C68_length : forall {W} (X : ext W) n ra v p h w k, counts h v k ->
  std_call X n ra SLen [v] p h w = Val (VInt (Z.of_nat k)) (h, w) /\
  std_call X n ra SIsEmpty [v] p h w = Val (VBool (Nat.eqb k 0)) (h, w).
Proof. exact @len_call. Qed.
Print Assumptions C68_length.

Theorem C68_array : forall {W} (X : ext W) ra l items v p h w r, nth_error (h_arrs h) l = Some items ->
  (exists n, std_call X n ra SContains [VArr l; v] p h w = Val (VBool r) (h, w)) <-> among h items v r.
Proof. exact @contains_array. Qed.
Print Assumptions C68_array.

(** A dict contains the keys that it can be indexed with. *)
Theorem C68_dict : forall {W} (X : ext W) n ra l k p q (s : state W) r,
  std_call X n ra SContains [VDict l; k] p (st_heap s) (st_world s) = Val (VBool r) (st_heap s, st_world s) <->
  if r then exists v, access n (VDict l) q k p s = Val v s
  else access n (VDict l) q k p s = Pan (PIndexOutOfBounds k p) s.
Proof. exact @contains_dict. Qed.
Print Assumptions C68_dict.

Theorem C68_string : forall {W} (X : ext W) n ra s c p h w, exists r,
  std_call X n ra SContains [VStr s; VByte c] p h w = Val (VBool r) (h, w) /\ (r = true <-> In c s).
Proof. exact @contains_string. Qed.
Print Assumptions C68_string.

Example C68_case :
  counts (mkheap [] [[VNil]] [] []) (VArr 0) 1 /\ among (mkheap [] [[]; []] [] []) [VInt 1; VArr 0] (VArr 1) true /\
  demo 90 (bs "std.println([std.contains([1, [2]], [2]), std.contains([1], 2), std.contains(@[ a: nil ], ""a""), std.contains(""abc"", 'c'), std.is_empty(@[]), std.len(""xyz"")])"%string)
  = Some (bs "[ true, false, true, true, true, 3 ]
"%string, inl VNil).
Proof.
  split; [now apply (co_array (mkheap [] [[VNil]] [] []) 0 [VNil])|]. split; [|vm_compute; reflexivity].
  exists [VInt 1], (VArr 0), []. split; [reflexivity|]. split; [intros y [<-|[]]; now exists 1|now exists 2].
Qed.

(** C69.  Environment *)
Theorem C69_export_partial : forall {W} (X : ext W) n ra k v p h w,
  (exportable k v -> std_call X n ra SExport [VStr k; VStr v] p h w = Val VNil (h, x_set_env X k v w)) /\
  (In x3d k \/ In x00 k -> std_call X n ra SExport [VStr k; VStr v] p h w = Val (VErr (bs "invalid export key"%string) (VStr k)) (h, w)) /\
  (~ In x3d k -> ~ In x00 k -> In x00 v -> std_call X n ra SExport [VStr k; VStr v] p h w = Val (VErr (bs "invalid export value"%string) (VStr v)) (h, w)).
Proof. exact @export_call. Qed.
Print Assumptions C69_export_partial.

Theorem C69_env_partial : forall {W} (X : ext W) n m ra ra' k v p q h h' w, environment X -> exportable k v -> exists w',
  std_call X n ra SExport [VStr k; VStr v] p h w = Val VNil (h, w') /\
  std_call X m ra' SEnv [VStr k] q h' w' = Val (VStr v) (h', w') /\
  forall k', k' <> k -> exists r, std_call X m ra' SEnv [VStr k'] q h' w = Val r (h', w) /\ std_call X m ra' SEnv [VStr k'] q h' w' = Val r (h', w').
Proof. exact @env_after_export. Qed.
Print Assumptions C69_env_partial.

(** An empty name stops the process. *)
Theorem C69_empty_name_refuted : exists k, forall W (X : ext W) n ra v p h w,
  ~ In x00 v -> std_call X n ra SExport [VStr k; VStr v] p h w = Crash CEnv.
Proof. exists []. intros W X n ra v p h w N. cbn [std_call existsb orb]. apply has_no_byte in N. now rewrite N. Qed.
Print Assumptions C69_empty_name_refuted.

(** A world that is an environment and nothing else *)
Definition lonely : ext (list (bytes * bytes)) :=
  mkext _ None
    (fun _ => None) (fun _ => []) (fun s => s) (fun _ => 0%N) (fun d => d) (fun s => s) false
    (fun _ => []) (fun _ => []) (fun _ w => (None, w)) (fun _ => inr [])
    (fun k w => option_map snd (List.find (fun e => bytes_eqb (fst e) k) w)) (fun k v w => (k, v) :: w)
    (fun _ w => (None, w)) (fun w => (inr [], w)) (fun _ w => w)
    (fun w => (S754_zero false, w)) (fun a _ w => (a, w)) (fun _ w => w)
    (fun _ _ => inl []) (fun _ => []) (fun _ => None) (fun _ => [])
    (fun _ => None) (fun _ _ => false) (fun _ s => [s]) (fun _ s _ => s)
    (fun t _ _ => inr t) (fun _ _ => inl []) (fun _ h w => (inl (VNil, h), w)).
Example C69_case :
  environment lonely /\ exportable (bs "A"%string) (bs "x=y"%string) /\ In x3d (bs "A=B"%string) /\
  demo 60 (bs "std.export(""A=B"", ""x"").description"%string) = Some ([], inl (VStr (bs "invalid export key"%string))) /\
  demo 60 (bs "std.env(""HOME"")"%string) = Some ([], inl (VStr (bs "/home/me"%string))).
Proof.
  split; [|split; [|split; [cbn; auto|split; vm_compute; reflexivity]]].
  - intros k v w. cbn. split; [assert (bytes_eqb k k = true) as -> by (now apply TextProofs.bytes_eqb_eq); reflexivity|].
    intros k' N. destruct (bytes_eqb k k') eqn:E; [|reflexivity]. apply TextProofs.bytes_eqb_eq in E. congruence.
  - repeat split; cbn; [discriminate|intuition discriminate..].
Qed.

(** C70.  Conversions of numbers *)
Theorem C70_int : forall {W} (X : ext W) n ra f p h w z, std_call X n ra SInt [VFloat f] p h w = Val (VInt z) (h, w) <-> truncated f z.
Proof. exact @int_call. Qed.
Print Assumptions C70_int.

Theorem C70_float : forall {W} (X : ext W) n m ra ra' z p q h w h' w', (Z.abs z <= 2 ^ 53)%Z -> exists f,
  std_call X n ra SFloat [VInt z] p h w = Val (VFloat f) (h, w) /\ same_number z f /\
  std_call X m ra' SInt [VFloat f] q h' w' = Val (VInt z) (h', w').
Proof. exact @float_call. Qed.
Print Assumptions C70_float.

Example C70_case :
  truncated (S754_finite true 7 (-1)) (-3) /\ truncated (S754_finite false 1 70) i64_max /\ same_number (-6) (S754_finite true 12 (-1)) /\
  demo 60 (bs "std.int(std.float(9007199254740992)) - std.int(std.float(-7) / std.float(2))"%string) = Some ([], inl (VInt 9007199254740995)) /\
  (** Above [2 ^ 53] floats cannot hold all integers. *)
  demo 60 (bs "std.int(std.float(9007199254740993))"%string) = Some ([], inl (VInt 9007199254740992)).
Proof.
  split; [apply (tr_negative _ _ 3); repeat split; vm_compute; congruence|].
  split; [apply (tr_positive _ _ (2 ^ 70)); repeat split; vm_compute; congruence|]. split; [constructor; reflexivity|]. split; vm_compute; reflexivity.
Qed.
