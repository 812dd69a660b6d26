(** Properties of the standard library (C38 to C48). *)
From Coq Require Import Strings.String Sorting.Permutation.
From Verif Require Import Base Lexer Ast Program Value Text StdLib Exec Runtime Demo SpecText SpecLib LibProofs.

(** C38.  Decoding the hexadecimal text of a string gives the string back; the text has two
    digits in lower case for every byte, which are the digits of its value. *)
Theorem C38_hex_round_trip : forall {W} (X : ext W) s n args p h w,
  exists t, std_call X n args SHexEncode [VStr s] p h w = Val (VStr t) (h, w) /\
    std_call X n args SHexDecode [VStr t] p h w = Val (VStr s) (h, w) /\
    exists ds, t = flat_map (fun ij => [nth (fst ij) lower_hex x00; nth (snd ij) lower_hex x00]) ds /\
      Forall2 (fun c ij => fst ij < 16 /\ snd ij < 16 /\ Byte.to_N c = N.of_nat (16 * fst ij + snd ij)) s ds.
Proof. exact @hex_std. Qed.
Print Assumptions C38_hex_round_trip.

Example C38_case : demo 40 (bs "std.hex.encode(""~hush"")"%string) = Some ([], inl (VStr (bs "7e68757368"%string))) /\
  demo 40 (bs "std.hex.decode(""7e68757368"")"%string) = Some ([], inl (VStr (bs "~hush"%string))).
Proof. split; vm_compute; reflexivity. Qed.

(** C39 *)
Theorem C39_base64_round_trip : forall {W} (X : ext W) s n args p h w,
  exists t, std_call X n args SBase64Encode [VStr s] p h w = Val (VStr t) (h, w) /\
    std_call X n args SBase64Decode [VStr t] p h w = Val (VStr s) (h, w) /\
    length t = 4 * ((length s + 2) / 3).
Proof. exact @base64_std. Qed.
Print Assumptions C39_base64_round_trip.

Theorem C39_base64_injective : forall {W} (X : ext W) s s' n args p h w t t' h1 h2 w1 w2,
  std_call X n args SBase64Encode [VStr s] p h w = Val t (h1, w1) ->
  std_call X n args SBase64Encode [VStr s'] p h w = Val t' (h2, w2) -> s <> s' -> t <> t'.
Proof. exact @base64_distinct. Qed.
Print Assumptions C39_base64_injective.

Example C39_case :
  demo 40 (bs "std.base64.encode(""hush"")"%string) = Some ([], inl (VStr (bs "aHVzaA=="%string))) /\
  demo 40 (bs "std.base64.encode(""hushh"")"%string) = Some ([], inl (VStr (bs "aHVzaGg="%string))) /\
  demo 40 (bs "std.base64.decode(""aHVzaA=="")"%string) = Some ([], inl (VStr (bs "hush"%string))).
Proof. repeat split; vm_compute; reflexivity. Qed.

(** C40.  The array holds the pieces between the occurrences of the pattern found from left to
    right; joined with the pattern they are the string, and no piece contains the pattern. *)
Theorem C40_split : forall {W} (X : ext W) s pat n args p h w, pat <> [] ->
  exists l h' parts, std_call X n args SSplit [VStr s; VStr pat] p h w = Val (VArr l) (h', w) /\
    arr_get h' l = map VStr parts /\ join pat parts = s /\ Forall (fun x => ~ occurs pat x) parts /\ pieces pat s parts.
Proof. exact @split_std. Qed.
Print Assumptions C40_split.

Example C40_case :
  exists s, demo_run 40 (bs "std.split(""aaabaa"", ""aa"")"%string) = Some (Val (VArr 1) s) /\
    arr_get (st_heap s) 1 = [VStr []; VStr (bs "ab"%string); VStr []].
Proof. eexists. split; [vm_compute; reflexivity|]. vm_compute. reflexivity. Qed.

(** C41.  The pieces are those of C40.  An empty pattern occurs everywhere: the replacement is
    put before every byte and at the end. *)
Theorem C41_replace : forall {W} (X : ext W) s pat r n args p h w,
  exists t, std_call X n args SReplace [VStr s; VStr pat; VStr r] p h w = Val (VStr t) (h, w) /\
    (pat <> [] -> exists parts, pieces pat s parts /\ t = join r parts) /\
    (pat = [] -> t = r ++ flat_map (fun c => c :: r) s) /\
    (~ occurs pat s -> t = s) /\ (r = pat -> t = s).
Proof. exact @replace_std. Qed.
Print Assumptions C41_replace.

Example C41_case :
  demo 40 (bs "std.replace(""aaabaa"", ""aa"", ""aab"")"%string) = Some ([], inl (VStr (bs "aababaab"%string))) /\
  demo 40 (bs "std.replace(""ab"", """", ""-"")"%string) = Some ([], inl (VStr (bs "-a-b-"%string))).
Proof. split; vm_compute; reflexivity. Qed.

(** C42.  Strings longer than [i64::MAX] cannot exist. *)
Theorem C42_substr : forall {W} (X : ext W) s start len n args p h w,
  (Z.of_nat (length s) <= i64_max)%Z -> in_i64 start = true -> in_i64 len = true ->
  (exists a t b, s = a ++ t ++ b /\ Z.of_nat (length a) = start /\ Z.of_nat (length t) = len /\
     std_call X n args SSubstr [VStr s; VInt start; VInt len] p h w = Val (VStr t) (h, w)) \/
  ((~ exists a t b, s = a ++ t ++ b /\ Z.of_nat (length a) = start /\ Z.of_nat (length t) = len) /\
   std_call X n args SSubstr [VStr s; VInt start; VInt len] p h w = Val VNil (h, w)).
Proof. exact @substr_std. Qed.
Print Assumptions C42_substr.

Example C42_case :
  demo 40 (bs "std.substr(""hush"", 1, 2)"%string) = Some ([], inl (VStr (bs "us"%string))) /\
  demo 40 (bs "std.substr(""hush"", 3, 2)"%string) = Some ([], inl VNil) /\
  demo 40 (bs "std.substr(""hush"", 4, 0)"%string) = Some ([], inl (VStr [])) /\
  demo 40 (bs "std.substr(""hush"", 2, -1)"%string) = Some ([], inl VNil) /\
  demo 40 (bs "std.substr(""hush"", -1, 2)"%string) = Some ([], inl VNil).
Proof. repeat split; vm_compute; reflexivity. Qed.

(** C43, for a step other than 0 when no sum leaves the 64-bit integers: the progression is
    finite, its elements come out in order, and after them the iterator stays finished. *)
Theorem C43_range_partial : forall {W} (X : ext W) from to step, step <> 0%Z ->
  (forall m z, In z (progression m from to step) -> in_i64 (z + step) = true) ->
  exists m, length (progression m from to step) < m /\
  forall n args p h w k, exists st h',
    std_call X n args SRange [VInt from; VInt to; VInt step] p h w
      = Val (VFun (FRust (NRangeInt st to step))) (h', w) /\
    yields X itself (NRangeInt st to step) st k h' (map VInt (progression m from to step)).
Proof. exact @range_std. Qed.
Print Assumptions C43_range_partial.

Example C43_case : exists m, progression m 7 1 (-3) = [7; 4]%Z /\ length (progression m 7 1 (-3)) < m /\
  demo 60 (bs "let a = [] for x in std.range(7, 1, -3) do std.println(x) end"%string) = Some (bs "7
4
"%string, inl VNil).
Proof. exists 5. repeat split; vm_compute; auto. Qed.

(** Ranges of floats, or of integers and floats: the sums, with their rounding, in order. *)
Theorem C43_floats : forall {W} (X : ext W) a b c from to step,
  promoted a from -> promoted b to -> promoted c step -> ~ (is_integer a /\ is_integer b /\ is_integer c) ->
  forall n args p h w k, exists st h',
    std_call X n args SRange [a; b; c] p h w = Val (VFun (FRust (NRangeFloat st to step))) (h', w) /\
    yields X itself (NRangeFloat st to step) st k h' (map VFloat (float_progression k from to step)).
Proof. exact @float_range_std. Qed.
Print Assumptions C43_floats.

(** From 2 down to 0.5 in steps of one half, and a range that stands still *)
Example C43_floats_case :
  let half := S754_finite false 4503599627370496 (-53) in let one := S754_finite false 4503599627370496 (-52) in
  let one_and_half := S754_finite false 6755399441055744 (-52) in let two := S754_finite false 4503599627370496 (-51) in
  promoted (VInt 2) two /\ promoted (VFloat half) half /\
  ~ (is_integer (VInt 2) /\ is_integer (VFloat half) /\ is_integer (VFloat (SFopp half))) /\
  float_progression 9 two half (SFopp half) = [two; one_and_half; one] /\
  float_progression 3 half one (S754_finite false 4503599627370496 (-1000)) = [half; half; half] /\
  float_progression 3 half two S754_nan = [].
Proof. repeat split; try (vm_compute; reflexivity). intros (_ & (z & [=]) & _). Qed.

(** With a step of 0 and [from] above [to] the iterator never finishes. *)
Theorem C43_zero_step_refuted : exists from to : Z, forall W (X : ext W) n args p h w k,
  exists st h', std_call X n args SRange [VInt from; VInt to; VInt 0] p h w
      = Val (VFun (FRust (NRangeInt st to 0))) (h', w) /\
    yields X itself (NRangeInt st to 0) st k h' (repeat (VInt from) k).
Proof. exists 1%Z, 0%Z. intros W X. apply (range_zero X 1 0); reflexivity. Qed.
Print Assumptions C43_zero_step_refuted.

(** The addition wraps: after the greatest odd integer comes the smallest one. *)
Theorem C43_overflow_refuted :
  exists from to step v s, in_i64 from = true /\ in_i64 to = true /\ in_i64 step = true /\
    demo_run 60 (bs "let it = std.range(9223372036854775805, 9223372036854775807, 4) it() it().value"%string) = Some (Val (VInt v) s) /\
    from = 9223372036854775805%Z /\ to = 9223372036854775807%Z /\ step = 4%Z /\
    (forall m, ~ In v (progression m from to step)).
Proof.
  exists 9223372036854775805%Z, 9223372036854775807%Z, 4%Z. eexists _, _.
  repeat (split; [vm_compute; reflexivity|]). intros [|[|m]] I; vm_compute in I; decompose [or] I; try contradiction; discriminate.
Qed.
Print Assumptions C43_overflow_refuted.

(** C44.  Whatever happens between the calls of the iterator, as long as the iterator itself is
    not called. *)
Theorem C44_iterate_string : forall {W} (X : ext W) s n args p h w k,
  exists st h', std_call X n args SIter [VStr s] p h w = Val (VFun (FRust (NIterStr s st))) (h', w) /\
    yields X itself (NIterStr s st) st k h' (map VByte s).
Proof. exact @std_iter_string. Qed.
Print Assumptions C44_iterate_string.

Theorem C44_iterate_dict : forall {W} (X : ext W) l n args p h w k, some_order X ->
  exists st h' es, std_call X n args SIter [VDict l] p h w = Val (VFun (FRust (NIterDict st))) (h', w) /\
    Permutation es (dict_entries h l) /\ yields X as_entry (NIterDict st) st k h' es.
Proof. exact @std_iter_dict. Qed.
Print Assumptions C44_iterate_dict.

Example C44_demo_order : some_order demo_ext.
Proof. intros d. reflexivity. Qed.
Example C44_case :
  demo 80 (bs "let d = @[a: 1, b: 2] for e in std.iter(d) do std.println(e.key, e.value) d.a = 5 d.c = 4 end for c in std.iter(""hi"") do std.println(c) end"%string)
  = Some (bs "b	2
a	1
h
i
"%string, inl VNil).
Proof. vm_compute. reflexivity. Qed.

(** C45 *)
Theorem C45_integer_text : forall {W} (X : ext W) z n args p h w, in_i64 z = true ->
  exists t, std_call X (S n) args SToString [VInt z] p h w = Val (VStr t) (h, w) /\
    std_call X (S n) args SInt [VStr t] p h w = Val (VInt z) (h, w).
Proof. exact @int_std. Qed.
Print Assumptions C45_integer_text.

Example C45_case : demo 40 (bs "std.to_string(-9223372036854775807 - 1)"%string) = Some ([], inl (VStr (bs "-9223372036854775808"%string))) /\
  demo 40 (bs "std.int(""-9223372036854775808"")"%string) = Some ([], inl (VInt i64_min)).
Proof. split; vm_compute; reflexivity. Qed.

(** C46.  The function takes one argument and always looks at any depth. *)
Theorem C46_has_error : forall {W} (X : ext W) v args p h w, some_order X -> acyclic h v ->
  exists n, forall m, n <= m -> exists b,
    std_call X m args SHasError [v] p h w = Val (VBool b) (h, w) /\ (b = true <-> holds_error h v).
Proof. exact @has_error_std. Qed.
Print Assumptions C46_has_error.

Example C46_case :
  demo 60 (bs "std.has_error([1, @[a: [2, std.error(""e"", 3)]]])"%string) = Some ([], inl (VBool true)) /\
  demo 60 (bs "std.has_error([1, @[a: [2, 3]]])"%string) = Some ([], inl (VBool false)).
Proof. split; vm_compute; reflexivity. Qed.
Example C46_acyclic : acyclic (mkheap [] [[VInt 1; VDict 0]] [[(VStr [], VErr [] VNil)]] []) (VArr 0).
Proof.
  apply ac_array. intros v [<-|[<-|[]]]; [now apply ac_other|].
  apply ac_dict; intros k v [E|[]]; injection E as <- <-; now apply ac_other.
Qed.

(** C47 *)
Theorem C47_typecheck_same : forall {W} (X : ext W) v n args p h w,
  std_call X n args SType [v] p h w = Val (VStr (type_name v)) (h, w) /\
  std_call X n args STypecheck [v; VStr (type_name v)] p h w = Val v (h, w).
Proof. intros. split; [now destruct v|]. exact (typecheck_same X v n args p h w). Qed.
Print Assumptions C47_typecheck_same.

Theorem C47_typecheck_other : forall {W} (X : ext W) v t n args p h w, In t type_names -> t <> type_name v ->
  std_call X n args STypecheck [v; VStr t] p h w = Pan (PTypeError v t p) (h, w).
Proof. exact @typecheck_other. Qed.
Print Assumptions C47_typecheck_other.

Theorem C47_typecheck_unknown : forall {W} (X : ext W) v t n args p h w, ~ In t type_names ->
  std_call X n args STypecheck [v; VStr t] p h w = Pan (PValueError (VStr t) (bs "valid type"%string) p) (h, w).
Proof. exact @typecheck_unknown. Qed.
Print Assumptions C47_typecheck_unknown.

Example C47_case :
  demo 40 (bs "std.typecheck('c', ""char"")"%string) = Some ([], inl (VByte x63)) /\
  (exists p, demo 40 (bs "std.typecheck('c', ""string"")"%string) = Some ([], inr (PTypeError (VByte x63) (bs "string"%string) p))) /\
  (exists p, demo 40 (bs "std.typecheck('c', ""byte"")"%string) = Some ([], inr (PValueError (VStr (bs "byte"%string)) (bs "valid type"%string) p))).
Proof. split; [|split; eexists]; vm_compute; reflexivity. Qed.

(** C48.  The array is allocated, which every array value is. *)
Theorem C48_push_pop : forall {W} (X : ext W) l v n n' args args' p q h w w', l < length (h_arrs h) ->
  exists h', std_call X n args SPush [VArr l; v] p h w = Val VNil (h', w) /\
    arr_get h' l = arr_get h l ++ [v] /\ std_call X n' args' SPop [VArr l] q h' w' = Val v (h, w').
Proof. exact @push_pop. Qed.
Print Assumptions C48_push_pop.

Theorem C48_pop_empty : forall {W} (X : ext W) l n args p h w, arr_get h l = [] ->
  std_call X n args SPop [VArr l] p h w = Pan (PEmptyCollection p) (h, w).
Proof. exact @pop_empty. Qed.
Print Assumptions C48_pop_empty.

Example C48_case :
  demo 60 (bs "let a = [1] std.push(a, a) std.pop(a) std.println(a) std.pop(a)"%string) = Some (bs "[ 1 ]
"%string, inl (VInt 1)) /\
  (exists p, demo 60 (bs "std.pop([])"%string) = Some ([], inr (PEmptyCollection p))).
Proof. split; [|eexists]; vm_compute; reflexivity. Qed.

(** C90 *)
Theorem C90_read : forall {W} (X : ext W) s n args p h w,
  (forall z, std_call X n args SInt [VStr s] p h w = Val (VInt z) (h, w) <-> writes z s /\ in_i64 z = true) /\
  ((forall z, writes z s -> in_i64 z = false) ->
   std_call X n args SInt [VStr s] p h w = Pan (PValueError (VStr s) (bs "valid integer"%string) p) (h, w)).
Proof. exact @int_reads. Qed.
Print Assumptions C90_read.

Example C90_case :
  writes (-120) (bs "-0120"%string) /\ in_i64 (-120) = true /\
  demo 40 (bs "std.int(""-0120"")"%string) = Some ([], inl (VInt (-120))) /\
  (exists p, demo 40 (bs "std.int("""")"%string) = Some ([], inr (PValueError (VStr []) (bs "valid integer"%string) p))) /\
  (exists p, demo 40 (bs "std.int(""9223372036854775808"")"%string) = Some ([], inr (PValueError (VStr (bs "9223372036854775808"%string)) (bs "valid integer"%string) p))) /\
  (forall z, ~ writes z (bs "1_000"%string)).
Proof.
  split; [|repeat split; try eexists; try (vm_compute; reflexivity)].
  - apply (wr_minus 120). apply (sp_more 12 (bs "012"%string) 0); [lia|]. apply (sp_more 1 (bs "01"%string) 2); [lia|].
    apply (sp_more 0 (bs "0"%string) 1); [lia|]. apply (sp_digit 0). lia.
  - intros z H.  inversion H as [? ? S|? ? S|? ? S]; subst. apply spells_digits in S. destruct S as [S _]. vm_compute in S. discriminate.
Qed.
