(** Properties of functions and the places where they are written: C95, C96, and more of C28. *)
From Coq Require Import Strings.String Sorted.
From Verif Require Import Base Lexer Ast Parser Program Sema Value Text StdLib Exec Runtime Demo SpecRuntime SpecPlace PlaceProofs.

(** C95.  The places of the functions of an accepted program ascend in the order of the text.  So
    no two share a place. *)
Theorem C95_places : forall src b les p, analyze src = Analysis b les [] -> sema b = SemaOk p ->
  StronglySorted before (map wf_place (functions p)).
Proof. exact functions_sorted. Qed.
Print Assumptions C95_places.

(** Closures are equal exactly if they come from the same place of the same loaded file and
    their captured variables hold equal values. *)
Theorem C95_equal : forall h n bits u u' np np' fi fi' body body' c c' p p',
  eqv h (S n) bits (VFun (FHush u np fi body c p)) (VFun (FHush u' np' fi' body' c' p')) = Known true <->
  u = u' /\ sp_pos p = sp_pos p' /\
  Forall2 (fun x y => eqv h n bits (cell_get h (fst x)) (cell_get h (fst y)) = Known true /\ snd x = snd y) c c'.
Proof. exact closures_equal. Qed.
Print Assumptions C95_equal.

(** Closures of an accepted program that are equal come from the same function expression. *)
Theorem C95_same_expression : forall {W} (X : ext W) (O : os W) src b les pr,
  analyze src = Analysis b les [] -> sema b = SemaOk pr ->
  forall f g, In f (functions pr) -> In g (functions pr) ->
  forall n u u' s s1 v t t1 w h m,
  gives X O n u (expression_of f) s v s1 -> gives X O n u' (expression_of g) t w t1 ->
  eqv h m false v w = Known true ->
  f = g /\ u_number u = u_number u' /\ (fi_captures (wf_info f) = [] -> u_path u = u_path u' -> v = w).
Proof. exact @equal_closures. Qed.
Print Assumptions C95_same_expression.

(** More of C28: functions of a program that capture nothing and are equal behave alike. *)
Theorem C28_plain_functions_partial : forall {W} (X : ext W) (O : os W) src b les pr,
  analyze src = Analysis b les [] -> sema b = SemaOk pr ->
  forall f g, In f (functions pr) -> In g (functions pr) -> fi_captures (wf_info f) = [] ->
  forall n u s s1 v t t1 w h m,
  gives X O n u (expression_of f) s (VFun v) s1 -> gives X O n u (expression_of g) t (VFun w) t1 ->
  eqv h m false (VFun v) (VFun w) = Known true ->
  forall k obj start p z, ev_call (interp X O k) obj v start p z = ev_call (interp X O k) obj w start p z.
Proof. exact @plain_alike. Qed.
Print Assumptions C28_plain_functions_partial.

(** C96.  In the order that std.sort uses, closures of a program stand as their expressions do in
    the text. *)
Theorem C96_order_partial : forall {W} (X : ext W) (O : os W) src b les pr,
  analyze src = Analysis b les [] -> sema b = SemaOk pr ->
  forall f g, In f (functions pr) -> In g (functions pr) ->
  forall n u s s1 v t t1 w rank h m k,
  gives X O n u (expression_of f) s v s1 -> gives X O n u (expression_of g) t w t1 ->
  exists c, vcmp rank h (S m) k v w = Known c /\
    (c = Lt <-> before (wf_place f) (wf_place g)) /\ (c = Gt <-> before (wf_place g) (wf_place f)) /\ (c = Eq <-> f = g).
Proof. exact @ordered_closures. Qed.
Print Assumptions C96_order_partial.

(** What they have captured is not looked at: closures can differ although neither comes first. *)
Theorem C96_order_refuted : exists src b pr f n u s v s1 t w t1,
  analyze src = Analysis b [] [] /\ sema b = SemaOk pr /\ In f (functions pr) /\
  gives demo_ext demo_os n u (expression_of f) s v s1 /\ gives demo_ext demo_os n u (expression_of f) t w t1 /\
  st_heap t = st_heap s1 /\
  eqv (st_heap t1) 2 false v w = Known false /\
  forall m k, vcmp (fun _ => 0%N) (st_heap t1) (S m) k v w = Known Eq.
Proof. exact order_blind. Qed.
Print Assumptions C96_order_refuted.

(** The order of functions of all kinds is the same seen from both sides, and transitive; those of the
    program come before those of the library. *)
Theorem C96_total_partial : forall rank h m k f g i,
  exists c c1 c2, vcmp rank h (S m) k (VFun f) (VFun g) = Known c /\ vcmp rank h (S m) k (VFun g) (VFun f) = Known (CompOpp c) /\
    vcmp rank h (S m) k (VFun g) (VFun i) = Known c1 /\ vcmp rank h (S m) k (VFun f) (VFun i) = Known c2 /\
    (c <> Gt -> c1 <> Gt -> c2 <> Gt /\ (c2 = Eq -> c = Eq /\ c1 = Eq)).
Proof. exact functions_ordered. Qed.
Print Assumptions C96_total_partial.

Theorem C96_kinds_partial : forall rank h m k unit params fi body context q g,
  vcmp rank h (S m) k (VFun (FHush unit params fi body context q)) (VFun (FRust g)) = Known Lt.
Proof. exact closures_first. Qed.
Print Assumptions C96_kinds_partial.

(** Functions of the library of which neither comes first are equal. *)
Theorem C96_library_partial : forall rank h m k a b,
  vcmp rank h (S m) k (VFun (FRust a)) (VFun (FRust b)) = Known Eq <->
  eqv h (S m) false (VFun (FRust a)) (VFun (FRust b)) = Known true.
Proof. exact library_equal. Qed.
Print Assumptions C96_library_partial.

Example C96_total_case :
  demo 60 (bs "let f = function() end let a = [std.sort, f, std.len] std.sort(a) a[0] == f and a[1] == std.len and a[2] == std.sort"%string)
  = Some ([], inl (VBool true)).
Proof. vm_compute. reflexivity. Qed.

Definition two_functions : bytes := bs "let f = function(x) return function() return x end end
let g = [f, function() end]"%string.

Example C95_case : exists b pr f g, analyze two_functions = Analysis b [] [] /\ sema b = SemaOk pr /\
  functions pr = [f; mkwritten 0 (mkframe_info 1 [mkcapture 0 0] None) [XReturn (XIdent 0 (mkpos 1 45))] (mkpos 1 27); g] /\
  map wf_place (functions pr) = [mkpos 1 8; mkpos 1 27; mkpos 2 12] /\
  demo 60 (bs "function mk(x) function() x end end
std.println([mk(1) == mk(1), mk(1) == mk(2), mk == mk])"%string) = Some (bs "[ true, false, true ]
"%string, inl VNil).
Proof.
  eexists. eexists. eexists. eexists. split; [vm_compute; reflexivity|]. split; [vm_compute; reflexivity|].
  split; [vm_compute; reflexivity|]. split; vm_compute; reflexivity.
Qed.

(** The last of these functions, twice. *)
Definition last_function : written_function := mkwritten 0 (mkframe_info 0 [] None) [] (mkpos 2 12).

Example C95_closures : exists b pr v w s1 s2, analyze two_functions = Analysis b [] [] /\ sema b = SemaOk pr /\
  In last_function (functions pr) /\ fi_captures (wf_info last_function) = [] /\
  gives demo_ext demo_os 2 (mkuinfo 0 (bs "main"%string)) (expression_of last_function) (initial [] []) (VFun v) s1 /\
  gives demo_ext demo_os 2 (mkuinfo 0 (bs "main"%string)) (expression_of last_function) s1 (VFun w) s2 /\
  eqv (st_heap s2) 1 false (VFun v) (VFun w) = Known true /\
  vcmp (fun _ => 0%N) (st_heap s2) 1 LockNone (VFun v) (VFun w) = Known Eq.
Proof.
  eexists. eexists. eexists. eexists. eexists. eexists. split; [vm_compute; reflexivity|]. split; [vm_compute; reflexivity|].
  split; [right; right; left; reflexivity|]. split; [reflexivity|]. split; [repeat eexists|]. split; [repeat eexists|].
  split; reflexivity.
Qed.
