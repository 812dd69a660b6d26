(** What is printed of a program can be read back. *)
From Coq Require Import Strings.String.
From Verif Require Import Base Lexer Ast Parser Program Sema Value Text StdLib Json Report AstFmt ProgFmt
  SpecLexer SpecParser SpecAst SpecProg TextProofs Demo.
From Verif Require ReportProofs.
Close Scope string_scope.

(** ** A reader *)
Definition obind {A B} (x : option A) (f : A -> option B) : option B := match x with Some a => f a | None => None end.
Notation "'do' x <- m ; k" := (obind m (fun x => k)) (at level 200, x pattern, m at level 100, k at level 200).

Fixpoint strip (p s : bytes) : option bytes :=
  match p, s with
  | [], _ => Some s
  | a :: p', b :: s' => if Byte.eqb a b then strip p' s' else None
  | _, [] => None
  end.
Definition begins (p s : bytes) : bool := match strip p s with Some _ => true | None => false end.
Fixpoint span (f : byte -> bool) (s : bytes) : bytes * bytes :=
  match s with
  | [] => ([], [])
  | c :: s' => if f c then let '(a, r) := span f s' in (c :: a, r) else ([], s)
  end.
Fixpoint unspell (plain : byte -> bool) (s : bytes) : bytes * bytes :=
  match s with
  | [] => ([], [])
  | c :: s' =>
      if Byte.eqb c BSLASH then
        match s' with
        | e :: s'' =>
            match List.find (fun x => Byte.eqb (fst x) e) debug_escapes with
            | Some (_, d) => let '(a, r) := unspell plain s'' in (d :: a, r)
            | None => ([], s)
            end
        | [] => ([], s)
        end
      else if plain c then let '(a, r) := unspell plain s' in (c :: a, r)
      else ([], s)
  end.

Fixpoint rsep {A} (stop : bytes -> bool) (item : bytes -> option (A * bytes)) (sep : bytes) (k : nat) (s : bytes)
  : option (list A * bytes) :=
  match k with
  | O => None
  | S k' =>
      do (x, r) <- item s;
      if stop r then Some ([x], r) else do r <- strip sep r; do (l, r) <- rsep stop item sep k' r; Some (x :: l, r)
  end.
Fixpoint rmany {A} (go : bytes -> bool) (item : bytes -> option (A * bytes)) (k : nat) (s : bytes)
  : option (list A * bytes) :=
  match k with
  | O => None
  | S k' =>
      if go s then do (x, r) <- item s; do (l, r) <- rmany go item k' r; Some (x :: l, r) else Some ([], s)
  end.

Definition rnat (s : bytes) : option (nat * bytes) :=
  let '(d, r) := span digit s in match d with [] => None | _ => Some (Z.to_nat (decimal_value d), r) end.
Definition rint (s : bytes) : option (Z * bytes) :=
  match s with
  | x2d :: s' => let '(d, r) := span digit s' in match d with [] => None | _ => Some ((- decimal_value d)%Z, r) end
  | _ => let '(d, r) := span digit s in match d with [] => None | _ => Some (decimal_value d, r) end
  end.
Definition rnumber (s : bytes) : option (literal * bytes) :=
  match rint s with
  | Some (z, x2e :: r) =>
      let '(d, r') := span digit r in
      match d with
      | [] => Some (LInt z, x2e :: r)
      | _ => Some (LFloat (fst (span digit s) ++ x2e :: d), r')
      end
  | Some (z, r) => Some (LInt z, r)
  | None => None
  end.
Definition rslot (s : bytes) : option (nat * bytes) := do s <- strip (bs "#") s; rnat s.

Fixpoint rparts (k : nat) (s : bytes) : option (list xpart * bytes) :=
  match k, s with
  | S k', c :: s' =>
      let more p s := do (l, r) <- rparts k' s; Some (p :: l, r) in
      match c with
      | x22 => Some ([], s')
      | x24 => do s <- strip (bs "{") s'; do (n, s) <- rslot s; do s <- strip (bs "}") s;
               more (XPUnit (XUDollar n nowhere)) s
      | x2a => more XPStar s'
      | x25 => more XPPercent s'
      | x7e => do s <- strip (bs "/") s'; more XPHome s
      | _ => let '(t, r) := unspell argument_plain s in more (XPUnit (XULiteral t)) r
      end
  | _, _ => None
  end.
Definition rargument (k : nat) (s : bytes) : option (xargument * bytes) :=
  do s <- strip [x22] s; do (ps, s) <- rparts k s; Some (mkxarg ps nowhere, s).
Definition rtarget (k : nat) (s : bytes) : option (xtarget * bytes) :=
  match s with
  | x3e :: x3e :: s' => do (a, s) <- rargument k s'; Some (XAppend a, s)
  | x3e :: x22 :: s' => do (a, s) <- rargument k (x22 :: s'); Some (XOverwrite a, s)
  | x3e :: s' => do (n, s) <- rint s'; Some (XFd n, s)
  | _ => None
  end.
Definition rredirection (k : nat) (s : bytes) : option (xredirection * bytes) :=
  match s with
  | x3c :: x3c :: s' => do (a, s) <- rargument k s'; Some (XInput true a, s)
  | x3c :: s' => do (a, s) <- rargument k s'; Some (XInput false a, s)
  | _ => do (n, s) <- rint s; do (t, s) <- rtarget k s; Some (XOutput n t, s)
  end.
Definition rkey (s : bytes) : option (xunit * bytes) :=
  match s with
  | x24 :: s' => do s <- strip (bs "{") s'; do (n, s) <- rslot s; do s <- strip (bs "}") s; Some (XUDollar n nowhere, s)
  | _ => let '(w, r) := span word_byte s in Some (XULiteral w, r)
  end.
Definition renv (k : nat) (s : bytes) : option ((xunit * xargument) * bytes) :=
  do (u, s) <- rkey s; do s <- strip (bs "=") s; do (a, s) <- rargument k s; do s <- strip (bs " ") s; Some ((u, a), s).
Definition blank_argument (k : nat) (s : bytes) : option (xargument * bytes) := do s <- strip (bs " ") s; rargument k s.
Definition blank_redirection (k : nat) (s : bytes) : option (xredirection * bytes) :=
  do s <- strip (bs " ") s; rredirection k s.
Definition no_quote (s : bytes) : bool := negb (begins [x22] s).
Definition goes_argument (s : bytes) : bool := begins [x20; x22] s.
Definition goes_redirection (s : bytes) : bool :=
  match s with x20 :: c :: _ => Byte.eqb c "<" || Byte.eqb c "-" || digit c | _ => false end.
Definition rtry (s : bytes) : bool * bytes := match strip (bs " ?") s with Some s => (true, s) | None => (false, s) end.
Definition rbasic (k : nat) (s : bytes) : option (xbasic * bytes) :=
  do (env, s) <- rmany no_quote (renv k) k s;
  do (program, s) <- rargument k s;
  do (arguments, s) <- rmany goes_argument (blank_argument k) k s;
  do (redirections, s) <- rmany goes_redirection (blank_redirection k) k s;
  let '(t, s) := rtry s in
  Some (mkxbasic program env arguments redirections (negb t) nowhere, s).
Definition rpiped (k : nat) (s : bytes) : option (xbasic * bytes) := do s <- strip (bs " | ") s; rbasic k s.
Definition rpipeline (k : nat) (s : bytes) : option (xcommand * bytes) :=
  do (head, s) <- rbasic k s; do (tail, s) <- rmany (begins (bs " | ")) (rpiped k) k s; Some (XExternal head tail, s).
Definition builtin_of (w : bytes) : option builtin :=
  if bytes_eqb w (bs "alias") then Some BAlias else if bytes_eqb w (bs "cd") then Some BCd
  else if bytes_eqb w (bs "exec") then Some BExec else if bytes_eqb w (bs "exec0") then Some BExec0
  else if bytes_eqb w (bs "spawn0") then Some BSpawn0 else None.
Definition rcommand (k : nat) (s : bytes) : option (xcommand * bytes) :=
  let '(w, r) := span word_byte s in
  match w with
  | [] => rpipeline k s
  | _ =>
      if begins (bs "=") r then rpipeline k s
      else
        do b <- builtin_of w; do (args, s) <- rmany goes_argument (blank_argument k) k r;
        let '(t, s) := rtry s in Some (XBuiltin b args t nowhere, s)
  end.

Definition detect (c : layout_context) (s : bytes) : layout_context := match s with x0a :: _ => c | _ => None end.
Definition rblock (k : nat) (c : layout_context) (s : bytes) : option (xblock * bytes) :=
  do (kind, s) <- (match s with
                   | x7b :: s => Some (Synchronous, s)
                   | x26 :: x7b :: s => Some (Asynchronous, s)
                   | x24 :: x7b :: s => Some (Ast.Capture, s)
                   | _ => None
                   end);
  let c := detect c s in
  do (l, s) <- rsep (fun s => negb (begins (bs ";") s)) (fun s => do s <- strip (step (indent c)) s; rcommand k s) (bs ";") k s;
  do s <- strip (step c ++ bs "}") s;
  match l with d :: l => Some (mkxblock kind d l, s) | [] => None end.

Definition prefix (c : layout_context) : bytes := match c with Some n => tabs n | None => [x20] end.
Definition separator (c : layout_context) : bytes := match c with Some _ => [x0a] | None => bs ";" end.

Definition rline (c : layout_context) (s : bytes) : option ((nat * option nat * bool) * bytes) :=
  do s <- strip (prefix c ++ bs "let ") s; do (n, s) <- rslot s; do s <- strip (bs ": ") s;
  do (from, s) <- (match strip (bs "auto") s with
                   | Some s => Some (None, s)
                   | None => do s <- strip (bs "capture ") s; do (m, s) <- rslot s; Some (Some m, s)
                   end);
  match strip (bs " self") s with
  | Some s => Some ((n, from, true), s)
  | None => Some ((n, from, false), s)
  end.
Definition frame_of (l : list (nat * option nat * bool)) : frame_info :=
  mkframe_info (length l)
    (flat_map (fun x => match snd (fst x) with Some m => [mkcapture m (fst (fst x))] | None => [] end) l)
    (option_map (fun x => fst (fst x)) (List.find (fun x => snd x) l)).
Definition rframe (k : nat) (c : layout_context) (s : bytes) : option (frame_info * bytes) :=
  if begins (prefix c ++ bs "let ") s then
    do (l, s) <- rsep (fun s => negb (begins (separator c ++ prefix c ++ bs "let ") s)) (rline c) (separator c) k s;
    Some (frame_of l, s)
  else Some (frame_of [], s).

Section Open.
Variable re : layout_context -> bytes -> option (xexpr * bytes).
Variable rs : layout_context -> bytes -> option (xstatement * bytes).
Variable n : nat.

Definition rlines (stop : bytes -> bool) (c : layout_context) (s : bytes) : option (list xstatement * bytes) :=
  rsep stop (fun s => do s <- strip (prefix c) s; rs c s) (separator c) n s.
Definition ends (c : layout_context) : bytes -> bool := begins (gap c ++ margin c ++ bs "e").
(** statements and the gap after them, or nothing *)
Definition rbody (c : layout_context) (s : bytes) : option (list xstatement * bytes) :=
  if begins (margin c ++ bs "e") s then Some ([], s)
  else do (l, s) <- rlines (ends c) (indent c) s; do s <- strip (gap c) s; Some (l, s).

Definition is_name (w : bytes) : bool :=
  match w with
  | c :: _ => letter c && negb (existsb (bytes_eqb w) [bs "nil"; bs "true"; bs "false"; bs "function"; bs "if"])
  | [] => false
  end.
Definition rfield (s : bytes) : option (xexpr * bytes) :=
  let '(w, r) := span word_byte s in if is_name w then Some (XFieldName w nowhere, r) else re None s.
Definition no_comma (s : bytes) : bool := negb (begins (bs ",") s).

Fixpoint rsuffixes (k : nat) (p : xexpr) (s : bytes) : option (xexpr * bytes) :=
  match k with
  | O => None
  | S k' =>
      match s with
      | x2e :: s' => let '(w, r) := span word_byte s' in rsuffixes k' (XAccess p (XFieldName w nowhere) nowhere) r
      | x5b :: s' =>
          do (f, r) <- rfield s'; do r <- strip (bs "]") r; rsuffixes k' (XAccess p f nowhere) r
      | x28 :: s' =>
          match strip (bs ")") s' with
          | Some r => rsuffixes k' (XCall p [] nowhere) r
          | None =>
              do (l, r) <- rsep no_comma (re None) (bs ", ") n s'; do r <- strip (bs ")") r;
              rsuffixes k' (XCall p l nowhere) r
          end
      | _ => Some (p, s)
      end
  end.

Definition operators : list (bytes * binary_op) :=
  [(bs "+ ", BPlus); (bs "- ", BMinus); (bs "* ", BTimes); (bs "/ ", BDiv); (bs "% ", BMod); (bs "== ", BEquals);
   (bs "!= ", BNotEquals); (bs "> ", BGreater); (bs ">= ", BGreaterEquals); (bs "< ", BLower); (bs "<= ", BLowerEquals);
   (bs "and ", BAnd); (bs "or ", BOr); (bs "++ ", BConcat)].
Fixpoint roperator (l : list (bytes * binary_op)) (s : bytes) : option (binary_op * bytes) :=
  match l with
  | [] => None
  | (t, op) :: l' => match strip t s with Some r => Some (op, r) | None => roperator l' s end
  end.
Definition rparen (s : bytes) : option (xexpr * bytes) :=
  match strip (bs "- ") s with
  | Some s => do (e, s) <- re None s; do s <- strip (bs ")") s; Some (XUnary UMinus e nowhere, s)
  | None =>
  match strip (bs "not ") s with
  | Some s => do (e, s) <- re None s; do s <- strip (bs ")") s; Some (XUnary UNot e nowhere, s)
  | None =>
      do (l, s) <- re None s;
      match strip (bs " ?)") s with
      | Some s => Some (XUnary UTry l nowhere, s)
      | None =>
          do s <- strip (bs " ") s; do (op, s) <- roperator operators s;
          do (r, s) <- re None s; do s <- strip (bs ")") s; Some (XBinary l op r nowhere, s)
      end
  end
  end.

Definition rarray (c : layout_context) (s : bytes) : option (xexpr * bytes) :=
  match strip (bs "]") s with
  | Some s => Some (XArray [] nowhere, s)
  | None =>
      let c := detect c s in
      do (l, s) <- rsep no_comma (fun s => do s <- strip (step (indent c)) s; re (indent c) s) (bs ",") n s;
      do s <- strip (step c ++ bs "]") s; Some (XArray l nowhere, s)
  end.
Definition rentry (c : layout_context) (s : bytes) : option ((symbol * xexpr) * bytes) :=
  do s <- strip (step (indent c)) s; let '(w, s) := span word_byte s in
  do s <- strip (bs ": ") s; do (e, s) <- re (indent c) s; Some ((w, e), s).
Definition rdict (c : layout_context) (s : bytes) : option (xexpr * bytes) :=
  match strip (bs "]") s with
  | Some s => Some (XDict [] nowhere, s)
  | None =>
      let c := detect c s in
      do (l, s) <- rsep no_comma (rentry c) (bs ",") n s;
      do s <- strip (step c ++ bs "]") s; Some (XDict l nowhere, s)
  end.
Definition rfunction (c : layout_context) (s : bytes) : option (xexpr * bytes) :=
  do (params, s) <- rnat s; do s <- strip (bs ")") s;
  let c := detect c s in
  do s <- strip (line_end c) s; do (fi, s) <- rframe n (indent c) s; do s <- strip (gap c) s;
  do (body, s) <- (if ends c s then Some ([], s) else rlines (ends c) (indent c) s);
  do s <- strip (step c ++ bs "end") s;
  Some (XFunction params fi body nowhere, s).
Definition rif (c : layout_context) (s : bytes) : option (xexpr * bytes) :=
  do (cond, s) <- re None s; do s <- strip (bs " then") s;
  let c := detect c s in
  do s <- strip (line_end c) s; do (t, s) <- rbody c s; do s <- strip (margin c) s;
  match strip (bs "else") s with
  | Some s =>
      do s <- strip (line_end c) s; do (e, s) <- rlines (ends c) (indent c) s;
      do s <- strip (gap c ++ margin c ++ bs "end") s; Some (XIf cond t e nowhere, s)
  | None => do s <- strip (bs "end") s; Some (XIf cond t [] nowhere, s)
  end.
Definition all_bytes : list byte := map (fun i => match Byte.of_N (N.of_nat i) with Some b => b | None => x00 end) (seq 0 256).
Definition rbyte (s : bytes) : option (xexpr * bytes) :=
  let '(t, s) := unspell single_plain s in
  do s <- strip (bs "'") s; do c <- List.find (fun c => bytes_eqb (char_text c) t) all_bytes; Some (XLit (LByte c) nowhere, s).

Definition rprimary (c : layout_context) (s : bytes) : option (xexpr * bytes) :=
  match s with
  | x23 :: s' => do (m, s) <- rnat s'; Some (XIdent m nowhere, s)
  | x27 :: s' => rbyte s'
  | x22 :: s' => let '(t, s) := unspell string_plain s' in do s <- strip [x22] s; Some (XLit (LString t) nowhere, s)
  | x5b :: s' => rarray c s'
  | x40 :: x5b :: s' => rdict c s'
  | x28 :: s' => rparen s'
  | x6e :: s' => do s <- strip (bs "il") s'; Some (XLit LNil nowhere, s)
  | x74 :: s' => do s <- strip (bs "rue") s'; Some (XLit LTrue nowhere, s)
  | x66 :: x61 :: s' => do s <- strip (bs "lse") s'; Some (XLit LFalse nowhere, s)
  | x66 :: s' => do s <- strip (bs "unction(") s'; rfunction c s
  | x69 :: s' => do s <- strip (bs "f ") s'; rif c s
  | x7b :: _ | x26 :: _ | x24 :: _ => do (b, s) <- rblock n c s; Some (XCommand b nowhere, s)
  | _ => do (l, s) <- rnumber s; Some (XLit l nowhere, s)
  end.

Definition lvalue_of (e : xexpr) : option lvalue :=
  match e with XIdent s _ => Some (LIdent s nowhere) | XAccess o f _ => Some (LAccess o f nowhere) | _ => None end.
Definition rplain (c : layout_context) (s : bytes) : option (xstatement * bytes) :=
  do (e, s) <- re c s;
  match strip (bs " = ") s with
  | Some s => do l <- lvalue_of e; do (v, s) <- re c s; Some (XAssign l v, s)
  | None => Some (XExpr e, s)
  end.
Definition rwhile (c : layout_context) (s : bytes) : option (xstatement * bytes) :=
  do (e, s) <- re None s; do s <- strip (bs " do" ++ gap c) s; do (b, s) <- rbody c s;
  do s <- strip (margin c ++ bs "end") s; Some (XWhile e b, s).
Definition rfor (c : layout_context) (s : bytes) : option (xstatement * bytes) :=
  do (m, s) <- rslot s; do s <- strip (bs " in ") s;
  do (e, s) <- re None s; do s <- strip (bs " do" ++ gap c) s; do (b, s) <- rbody c s;
  do s <- strip (margin c ++ bs "end") s; Some (XFor m e b, s).
Definition rstatement (c : layout_context) (s : bytes) : option (xstatement * bytes) :=
  match s with
  | x72 :: s' => do s <- strip (bs "eturn ") s'; do (e, s) <- re c s; Some (XReturn e, s)
  | x62 :: s' => do s <- strip (bs "reak") s'; Some (XBreak, s)
  | x77 :: s' => do s <- strip (bs "hile ") s'; rwhile c s
  | x66 :: x6f :: s' => do s <- strip (bs "r ") s'; rfor c s
  | _ => rplain c s
  end.
End Open.

Fixpoint rexpr (n : nat) (c : layout_context) (s : bytes) {struct n} : option (xexpr * bytes) :=
  match n with
  | O => None
  | S n' =>
      do (p, r) <- rprimary (rexpr n') (rstat n') n' c s; rsuffixes (rexpr n') n' n' p r
  end
with rstat (n : nat) (c : layout_context) (s : bytes) {struct n} : option (xstatement * bytes) :=
  match n with O => None | S n' => rstatement (rexpr n') (rstat n') n' c s end.
Definition rprogram (n : nat) (s : bytes) : option program :=
  do (fi, s) <- rframe n (Some 0%N) s; do s <- strip (step (Some 0%N)) s;
  match s with
  | [] => Some (mkprogram [] (fi_slots fi))
  | _ => do (l, _) <- rlines (rstat n) n (fun s => match s with [] => true | _ => false end) (Some 0%N) s;
         Some (mkprogram l (fi_slots fi))
  end.

(** ** Its parts *)
Lemma strip_app p s : strip p (p ++ s) = Some s.
Proof. induction p as [|a p IH]; cbn [strip app]; [reflexivity|]. now rewrite byte_dec_lb. Qed.
Lemma strip_nil s : strip [] s = Some s. Proof. reflexivity. Qed.
Lemma strip_cons a p s : strip (a :: p) (a :: s) = strip p s.
Proof. cbn [strip]. now rewrite byte_dec_lb. Qed.
Lemma strip_other a p b s : Byte.eqb a b = false -> strip (a :: p) (b :: s) = None.
Proof. intros H. cbn [strip]. now rewrite H. Qed.
Lemma begins_app p s : begins p (p ++ s) = true.
Proof. unfold begins. now rewrite strip_app. Qed.
Lemma strip_two p q s : strip (p ++ q) (p ++ s) = strip q s.
Proof. induction p as [|a p IH]; [reflexivity|]. cbn [app]. now rewrite strip_cons. Qed.

Definition stops (f : byte -> bool) (r : bytes) : Prop := match r with c :: _ => f c = false | [] => True end.
Lemma span_app f a r : Forall (fun c => f c = true) a -> stops f r -> span f (a ++ r) = (a, r).
Proof.
  intros H Hr. induction H as [|c a Hc H IH]; cbn [app span].
  - destruct r as [|c r]; [reflexivity|]. cbn in Hr. cbn [span]. now rewrite Hr.
  - now rewrite Hc, IH.
Qed.
Lemma unspell_app plain t s r : spelling plain debug_escapes t s -> stops (fun c => plain c || Byte.eqb c BSLASH) r ->
  unspell plain (t ++ r) = (s, r).
Proof.
  intros H Hr. induction H as [|c t s Hc Hb H IH|e c t s He H IH]; cbn [app].
  - destruct r as [|c r]; [reflexivity|]. cbn in Hr. apply Bool.orb_false_iff in Hr. destruct Hr as [H1 H2].
    cbn [unspell]. now rewrite H2, H1.
  - cbn [unspell]. assert (Byte.eqb c BSLASH = false) as ->.
    { destruct (Byte.eqb c BSLASH) eqn:E; [|reflexivity]. apply byte_dec_bl in E. contradiction. }
    now rewrite Hc, IH.
  - cbn [unspell]. rewrite byte_dec_lb by reflexivity.
    assert (exists e', List.find (fun x => Byte.eqb (fst x) e) debug_escapes = Some (e', c)) as [e' ->].
    { cbn in He. decompose [or] He; try contradiction;
        match goal with E : (_, _) = (_, _) |- _ => injection E as <- <- end; eexists; reflexivity. }
    now rewrite IH.
Qed.

Lemma rsep_ok {A B} (stop : bytes -> bool) (item : bytes -> option (B * bytes)) sep (T : A -> bytes) (F : A -> B) r : forall xs k,
  xs <> [] -> length xs <= k -> stop r = true ->
  (forall x r', In x xs -> (r' = r \/ exists y t, In y xs /\ r' = sep ++ T y ++ t) -> item (T x ++ r') = Some (F x, r')) ->
  (forall y t, In y xs -> stop (sep ++ T y ++ t) = false) ->
  rsep stop item sep k (sep_by sep (map T xs) ++ r) = Some (map F xs, r).
Proof.
  induction xs as [|x xs IH]; intros k Hn Hk Hs Hi Ht; [congruence|].
  destruct k as [|k]; cbn in Hk; [lia|]. destruct xs as [|y ys].
  - cbn [map sep_by rsep]. rewrite Hi by (auto; now left). cbn [obind]. now rewrite Hs.
  - change (sep_by sep (map T (x :: y :: ys))) with (T x ++ sep ++ sep_by sep (map T (y :: ys))).
    cbn [rsep]. rewrite <- !app_assoc.
    assert (G : exists t, sep_by sep (map T (y :: ys)) ++ r = T y ++ t).
    { destruct ys; cbn [map sep_by]; [eauto|]. rewrite <- !app_assoc. eauto. }
    destruct G as [t G]. rewrite Hi; [|now left|right; exists y, t; split; [right; now left|now rewrite G]].
    cbn [obind]. rewrite G at 1. rewrite Ht by (right; now left). rewrite strip_app. cbn [obind].
    rewrite IH; [reflexivity|discriminate|cbn in *; lia|assumption| |].
    + intros z r' Hz Hr. apply Hi; [now right|]. destruct Hr as [->|(u & t' & Hu & ->)]; [auto|].
      right. exists u, t'. split; [now right|reflexivity].
    + intros z t' Hz. apply Ht. now right.
Qed.
Lemma rmany_ok {A B} (go : bytes -> bool) (item : bytes -> option (B * bytes)) (T : A -> bytes) (F : A -> B) r : forall xs k,
  length xs < k -> go r = false ->
  (forall x r', In x xs -> (r' = r \/ exists y t, In y xs /\ r' = T y ++ t) -> item (T x ++ r') = Some (F x, r')) ->
  (forall y t, In y xs -> go (T y ++ t) = true) ->
  rmany go item k (concat (map T xs) ++ r) = Some (map F xs, r).
Proof.
  induction xs as [|x xs IH]; intros k Hk Hs Hi Ht; (destruct k as [|k]; cbn in Hk; [lia|]).
  - cbn [map concat app rmany]. now rewrite Hs.
  - cbn [map concat rmany]. rewrite <- app_assoc. rewrite Ht by now left.
    assert (G : concat (map T xs) ++ r = r \/ exists y t, In y (x :: xs) /\ concat (map T xs) ++ r = T y ++ t).
    { destruct xs as [|y ys]; [now left|]. right. cbn [map concat]. rewrite <- app_assoc. do 2 eexists. split; [right; now left|reflexivity]. }
    rewrite Hi; [|now left|assumption]. cbn [obind]. rewrite IH; [reflexivity|lia|assumption| |].
    + intros z r' Hz Hr. apply Hi; [now right|]. destruct Hr as [->|(u & t' & Hu & ->)]; [auto|].
      right. exists u, t'. split; [now right|reflexivity].
    + intros z t' Hz. apply Ht. now right.
Qed.

Lemma digits_text n : let w := digits_of n in w <> [] /\ Forall (fun c => digit c = true) w /\ decimal_value w = Z.of_N n.
Proof. destruct (ReportProofs.digits_of_digits n) as [[H1 H2] H3]. auto. Qed.
Lemma rnat_ok n r : stops digit r -> rnat (int_text (Z.of_nat n) ++ r) = Some (n, r).
Proof.
  intros Hr. unfold int_text. replace (Z.of_nat n <? 0)%Z with false by (symmetry; apply Z.ltb_ge; lia).
  destruct (digits_text (Z.to_N (Z.of_nat n))) as (H1 & H2 & H3). unfold rnat. rewrite span_app by assumption.
  destruct (digits_of (Z.to_N (Z.of_nat n))) eqn:E; [congruence|]. rewrite <- E in *. rewrite H3.
  do 2 f_equal. lia.
Qed.
Lemma digit_not_minus c : digit c = true -> c <> x2d.
Proof. intros H ->. discriminate H. Qed.
Lemma rint_ok z r : stops digit r -> rint (int_text z ++ r) = Some (z, r).
Proof.
  intros Hr. unfold int_text. destruct (Z.ltb_spec z 0) as [L|L].
  - destruct (digits_text (Z.to_N (- z))) as (H1 & H2 & H3). cbn [app rint]. rewrite span_app by assumption.
    destruct (digits_of (Z.to_N (- z))) eqn:E; [congruence|]. rewrite <- E in *. rewrite H3. do 2 f_equal. lia.
  - destruct (digits_text (Z.to_N z)) as (H1 & H2 & H3).
    assert (G : rint (digits_of (Z.to_N z) ++ r) = let '(d, r) := span digit (digits_of (Z.to_N z) ++ r) in match d with [] => None | _ => Some (decimal_value d, r) end).
    { destruct (digits_of (Z.to_N z)) as [|c w]; [congruence|]. inversion H2; subst. cbn [app].
      destruct c; try reflexivity. discriminate. }
    rewrite G, span_app by assumption.
    destruct (digits_of (Z.to_N z)) eqn:E; [congruence|]. rewrite <- E in *. rewrite H3. do 2 f_equal. lia.
Qed.
Lemma int_first z : exists c t, int_text z = c :: t /\ (c = x2d \/ digit c = true).
Proof.
  unfold int_text. destruct (z <? 0)%Z; [eauto|]. destruct (digits_text (Z.to_N z)) as (H1 & H2 & _).
  destruct H2; [congruence|eauto].
Qed.

Lemma common {A} (Q : nat -> A -> Prop) l : (forall x, In x l -> exists n0, forall n, n0 <= n -> Q n x) ->
  exists n0, forall n, n0 <= n -> forall x, In x l -> Q n x.
Proof.
  induction l as [|a l IH]; intros H; [exists 0; intros n _ x []|].
  destruct (H a (or_introl eq_refl)) as [n1 H1]. destruct IH as [n2 H2]; [intros; apply H; now right|].
  exists (n1 + n2). intros n Hn x [<-|Hx]; [apply H1; lia|apply H2; [lia|assumption]].
Qed.

Ltac lits := repeat match goal with |- context [bs ?s] => let v := eval vm_compute in (bs s) in change (bs s) with v end; cbn [app].
Ltac st := repeat first [rewrite strip_cons | rewrite strip_nil | rewrite strip_other by reflexivity]; cbn [obind].

(** ** Induction over programs *)
Section Induction.
Variables (P : xexpr -> Prop) (PL : lvalue -> Prop) (PS : xstatement -> Prop).
Hypotheses
  (h_ident : forall s p, P (XIdent s p)) (h_lit : forall l p, P (XLit l p)) (h_field : forall s p, P (XFieldName s p))
  (h_array : forall l p, Forall P l -> P (XArray l p))
  (h_dict : forall l p, Forall (fun kv => P (snd kv)) l -> P (XDict l p))
  (h_function : forall n fi b p, Forall PS b -> P (XFunction n fi b p))
  (h_unary : forall o e p, P e -> P (XUnary o e p)) (h_binary : forall l o r p, P l -> P r -> P (XBinary l o r p))
  (h_if : forall c t e p, P c -> Forall PS t -> Forall PS e -> P (XIf c t e p))
  (h_access : forall o f p, P o -> P f -> P (XAccess o f p)) (h_call : forall f l p, P f -> Forall P l -> P (XCall f l p))
  (h_command : forall b p, P (XCommand b p))
  (h_lident : forall s p, PL (LIdent s p)) (h_laccess : forall o f p, P o -> P f -> PL (LAccess o f p))
  (h_assign : forall l r, PL l -> P r -> PS (XAssign l r)) (h_return : forall e, P e -> PS (XReturn e)) (h_break : PS XBreak)
  (h_while : forall c b, P c -> Forall PS b -> PS (XWhile c b)) (h_for : forall s e b, P e -> Forall PS b -> PS (XFor s e b))
  (h_expr : forall e, P e -> PS (XExpr e)).
Fixpoint tree_expr (e : xexpr) : P e :=
  let exprs := fix go (l : list xexpr) : Forall P l :=
    match l with [] => Forall_nil _ | e :: l => Forall_cons _ (tree_expr e) (go l) end in
  let sts := fix go (l : list xstatement) : Forall PS l :=
    match l with [] => Forall_nil _ | s :: l => Forall_cons _ (tree_statement s) (go l) end in
  match e with
  | XIdent s p => h_ident s p
  | XLit l p => h_lit l p
  | XFieldName s p => h_field s p
  | XArray l p => h_array l p (exprs l)
  | XDict l p => h_dict l p ((fix go (l : list (symbol * xexpr)) : Forall (fun kv => P (snd kv)) l :=
      match l with [] => Forall_nil _ | kv :: l => Forall_cons _ (tree_expr (snd kv)) (go l) end) l)
  | XFunction n fi b p => h_function n fi b p (sts b)
  | XUnary o e p => h_unary o e p (tree_expr e)
  | XBinary l o r p => h_binary l o r p (tree_expr l) (tree_expr r)
  | XIf c t e p => h_if c t e p (tree_expr c) (sts t) (sts e)
  | XAccess o f p => h_access o f p (tree_expr o) (tree_expr f)
  | XCall f l p => h_call f l p (tree_expr f) (exprs l)
  | XCommand b p => h_command b p
  end
with tree_lvalue (l : lvalue) : PL l :=
  match l with LIdent s p => h_lident s p | LAccess o f p => h_laccess o f p (tree_expr o) (tree_expr f) end
with tree_statement (s : xstatement) : PS s :=
  let sts := fix go (l : list xstatement) : Forall PS l :=
    match l with [] => Forall_nil _ | s :: l => Forall_cons _ (tree_statement s) (go l) end in
  match s with
  | XAssign l r => h_assign l r (tree_lvalue l) (tree_expr r)
  | XReturn e => h_return e (tree_expr e)
  | XBreak => h_break
  | XWhile c b => h_while c b (tree_expr c) (sts b)
  | XFor s e b => h_for s e b (tree_expr e) (sts b)
  | XExpr e => h_expr e (tree_expr e)
  end.
End Induction.

Section Reading.
Context {W : Type} (X : ext W) (fd : bytes -> bytes).
Hypothesis TTY : x_tty X = false.
Hypothesis KW : keeps_words X.

Lemma paint_p c t : paint X c t = t. Proof. unfold paint. now rewrite TTY. Qed.
Lemma green_p t : green X t = t. Proof. apply paint_p. Qed.
Lemma yellow_p t : yellow X t = t. Proof. apply paint_p. Qed.
Lemma blue_p t : blue X t = t. Proof. apply paint_p. Qed.
Lemma bold_p t : bold X t = t. Proof. unfold bold. now rewrite TTY. Qed.
Lemma slot_p s : slot_text X s = x23 :: int_text (Z.of_nat s).
Proof. unfold slot_text. now rewrite !green_p. Qed.
Lemma symbol_p w : Forall (fun c => word_byte c = true) w -> symbol_text X w = w.
Proof. intros H. unfold symbol_text. now rewrite green_p, KW. Qed.

Lemma rslot_ok s r : stops digit r -> rslot (slot_text X s ++ r) = Some (s, r).
Proof. intros H. rewrite slot_p. unfold rslot. lits. st. now apply rnat_ok. Qed.

(** Arguments *)
Lemma parts_literal k c s : argument_plain c = true ->
  rparts (S k) (c :: s) = (let '(t, r) := unspell argument_plain (c :: s) in do (l, r) <- rparts k r; Some (XPUnit (XULiteral t) :: l, r)).
Proof. intros H. destruct c; try reflexivity; discriminate. Qed.
Lemma rparts_ok ps : forall k r, legible_parts (x_escape X) ps -> length ps < k ->
  rparts k (concat (map (xpart_text X) ps) ++ x22 :: r) = Some (map bare_part ps, r).
Proof.
  induction ps as [|p ps IH]; intros k r H Hk; (destruct k as [|k]; cbn in Hk; [lia|]); [reflexivity|].
  cbn [map concat]. rewrite <- app_assoc. destruct p as [[t|s q]| | |]; cbn [xpart_text xunit_text].
  - destruct H as (H1 & H2 & H3 & H4).
    assert (G : stops (fun c => argument_plain c || Byte.eqb c BSLASH) (concat (map (xpart_text X) ps) ++ x22 :: r)).
    { destruct ps as [|[[u|u v]| | |] ps]; cbn [map concat app xpart_text xunit_text]; try contradiction; rewrite ?yellow_p; try reflexivity. }
    assert (E : exists c u, x_escape X t = c :: u /\ argument_plain c = true).
    { destruct H2; [congruence|eauto|]. do 2 eexists. split; [reflexivity|reflexivity]. }
    destruct E as (c & u & E & Hc). rewrite E at 1. cbn [app]. rewrite parts_literal by assumption.
    change (c :: u ++ concat (map (xpart_text X) ps) ++ x22 :: r) with ((c :: u) ++ concat (map (xpart_text X) ps) ++ x22 :: r).
    rewrite <- E. rewrite (unspell_app _ _ _ _ H2 G). rewrite IH by (assumption || lia). reflexivity.
  - lits. cbn [rparts]. lits. st. rewrite <- app_assoc. rewrite rslot_ok by reflexivity. cbn [obind app]. st.
    rewrite IH by (assumption || lia). reflexivity.
  - rewrite yellow_p. lits. cbn [rparts]. lits. st. rewrite IH by (assumption || lia). reflexivity.
  - rewrite yellow_p. lits. cbn [rparts]. rewrite IH by (assumption || lia). reflexivity.
  - rewrite yellow_p. lits. cbn [rparts]. rewrite IH by (assumption || lia). reflexivity.
Qed.
Lemma rargument_ok a k r : legible_argument (x_escape X) a -> length (xa_parts a) < k ->
  rargument k (xargument_text X a ++ r) = Some (bare_argument a, r).
Proof.
  intros H Hk. unfold xargument_text, rargument. cbn [app]. st. rewrite <- app_assoc. cbn [app].
  rewrite rparts_ok by assumption. reflexivity.
Qed.
Lemma argument_first a : exists t, xargument_text X a = x22 :: t.
Proof. unfold xargument_text. cbn [app]. eauto. Qed.

Definition redirected (r : xredirection) : xargument :=
  match r with XOutput _ (XOverwrite a | XAppend a) | XInput _ a => a | _ => mkxarg [] nowhere end.
Lemma rredirection_ok rd k r : legible_redirection (x_escape X) rd -> length (xa_parts (redirected rd)) < k -> stops digit r ->
  rredirection k (xredirection_text X rd ++ r) = Some (bare_redirection rd, r).
Proof.
  intros H Hk Hr. destruct rd as [z t|[] a]; cbn [xredirection_text].
  - assert (G : forall u, rredirection k (int_text z ++ u) = do (n, s) <- rint (int_text z ++ u); do (t, s) <- rtarget k s; Some (XOutput n t, s)).
    { intros u. destruct (int_first z) as (c & w & -> & Hc). cbn [app].
      destruct Hc as [->|Hc]; [reflexivity|]. destruct c; try reflexivity; discriminate Hc. }
    rewrite <- app_assoc, G. rewrite rint_ok.
    2: { destruct t; reflexivity. }
    cbn [obind]. destruct t as [n|a|a]; cbn [xtarget_text]; lits.
    + assert (G2 : forall u, rtarget k (x3e :: int_text n ++ u) = do (n, s) <- rint (int_text n ++ u); Some (XFd n, s)).
      { intros u. destruct (int_first n) as (c & w & -> & Hc). cbn [app].
        destruct Hc as [->|Hc]; [reflexivity|]. destruct c; try reflexivity; discriminate Hc. }
      rewrite G2, rint_ok by assumption. reflexivity.
    + destruct (argument_first a) as [u E]. rewrite E. cbn [app rtarget].
      change (x22 :: u ++ r) with ((x22 :: u) ++ r). rewrite <- E. rewrite rargument_ok by assumption. reflexivity.
    + cbn [rtarget]. rewrite rargument_ok by assumption. reflexivity.
  - lits. cbn [rredirection]. rewrite rargument_ok by assumption. reflexivity.
  - lits. destruct (argument_first a) as [u E]. rewrite E. cbn [app rredirection].
    change (x22 :: u ++ r) with ((x22 :: u) ++ r). rewrite <- E. rewrite rargument_ok by assumption. reflexivity.
Qed.

Lemma rkey_ok u r : legible_key u -> rkey (xunit_text X u ++ bs "=" ++ r) = Some (bare_unit u, bs "=" ++ r).
Proof.
  intros H. destruct u as [s|s p]; cbn [xunit_text].
  - destruct H as [H1 H2]. rewrite KW by assumption.
    assert (G : forall t, rkey (s ++ t) = let '(w, r) := span word_byte (s ++ t) in Some (XULiteral w, r)).
    { intros t. destruct s as [|c s]; [congruence|]. inversion H2; subst. cbn [app]. destruct c; try reflexivity; discriminate. }
    rewrite G, span_app; [reflexivity|assumption|reflexivity].
  - lits. cbn [rkey]. lits. st. rewrite <- app_assoc, rslot_ok by reflexivity. cbn [obind app]. st. reflexivity.
Qed.
Lemma renv_ok kv k r : legible_key (fst kv) -> legible_argument (x_escape X) (snd kv) -> length (xa_parts (snd kv)) < k ->
  renv k ((xunit_text X (fst kv) ++ yellow X (bs "=") ++ xargument_text X (snd kv) ++ bs " ") ++ r)
  = Some ((bare_unit (fst kv), bare_argument (snd kv)), r).
Proof.
  intros H1 H2 H3. unfold renv. rewrite yellow_p, <- !app_assoc. rewrite rkey_ok by assumption. cbn [obind].
  rewrite strip_app. cbn [obind]. rewrite rargument_ok by assumption. cbn [obind]. now rewrite strip_app.
Qed.

(** What comes after a command, and after a command of a pipeline *)
Definition after_command (r : bytes) : Prop :=
  r = [] \/ exists t, r = x3b :: t \/ r = x0a :: t \/ r = x20 :: x7d :: t.
Definition after_basic (r : bytes) : Prop := after_command r \/ exists t, r = bs " | " ++ t.
Lemma after_stops r f : after_basic r -> f x3b = false -> f x0a = false -> f x20 = false -> stops f r.
Proof.
  intros [[->|(t & [->|[->| ->]])]|(t & ->)] H1 H2 H3; cbn; auto.
Qed.
Lemma after_argument r : after_basic r -> goes_argument r = false.
Proof. intros [[->|(t & [->|[->| ->]])]|(t & ->)]; reflexivity. Qed.
Lemma after_redirection r : after_basic r -> goes_redirection r = false.
Proof. intros [[->|(t & [->|[->| ->]])]|(t & ->)]; reflexivity. Qed.
Lemma after_try r : after_basic r -> rtry r = (false, r).
Proof. intros [[->|(t & [->|[->| ->]])]|(t & ->)]; reflexivity. Qed.

Lemma try_first (b : bool) r : after_basic r ->
  let t := (if b then [] else bs " " ++ command_operator_text X CTry) ++ r in
  rtry t = (negb b, r) /\ goes_argument t = false /\ goes_redirection t = false /\ stops digit t.
Proof.
  intros H. destruct b; cbn [app negb].
  - split; [now apply after_try|]. split; [now apply after_argument|]. split; [now apply after_redirection|].
    apply after_stops; auto.
  - replace (command_operator_text X CTry) with (bs "?") by (unfold command_operator_text; now rewrite yellow_p). repeat split; reflexivity.
Qed.

Lemma arguments_ok args k r : Forall (legible_argument (x_escape X)) args -> length args < k ->
  (forall a, In a args -> length (xa_parts a) < k) -> goes_argument r = false ->
  rmany goes_argument (blank_argument k) k (concat (map (fun a => bs " " ++ xargument_text X a) args) ++ r)
  = Some (map bare_argument args, r).
Proof.
  intros H H1 H2 H3. apply rmany_ok; [assumption|assumption| |].
  - intros a r' Ha _. unfold blank_argument. rewrite <- app_assoc, strip_app. cbn [obind]. apply rargument_ok; [|auto].
    rewrite Forall_forall in H. auto.
  - intros a t Ha. destruct (argument_first a) as [u ->]. reflexivity.
Qed.

Lemma rbasic_ok b : legible_basic (x_escape X) b -> exists k0, forall k, k0 <= k -> forall r, after_basic r ->
  rbasic k (xbasic_text X b ++ r) = Some (bare_basic b, r).
Proof.
  intros (H1 & H2 & H3 & H4).
  assert (L : forall {A} (f : A -> xargument) (l : list A), exists k0, forall k, k0 <= k -> forall x, In x l -> length (xa_parts (f x)) < k).
  { intros A f l. apply common. intros x _. exists (S (length (xa_parts (f x)))). intros; lia. }
  destruct (L _ snd (xb_env b)) as [k1 K1]. destruct (L _ (fun a => a) (xb_arguments b)) as [k2 K2].
  destruct (L _ redirected (xb_redirections b)) as [k3 K3].
  exists (k1 + k2 + k3 + S (length (xa_parts (xb_program b))) + S (length (xb_env b)) + S (length (xb_arguments b)) + S (length (xb_redirections b))).
  intros k Hk r Hr. unfold xbasic_text, rbasic. rewrite <- !app_assoc.
  rewrite (rmany_ok no_quote (renv k) (fun kv => xunit_text X (fst kv) ++ yellow X (bs "=") ++ xargument_text X (snd kv) ++ bs " ")
    (fun kv => (bare_unit (fst kv), bare_argument (snd kv)))); [|lia| | |].
  2: { destruct (argument_first (xb_program b)) as [u ->]. reflexivity. }
  2: { intros kv r' Hi _. rewrite Forall_forall in H2. destruct (H2 _ Hi). apply renv_ok; auto. apply K1; [lia|assumption]. }
  2: { intros kv t Hi. rewrite Forall_forall in H2. destruct (H2 _ Hi) as [G _]. destruct (fst kv) as [s|s p]; cbn [xunit_text]; [|reflexivity].
       destruct G as [G1 G2]. rewrite KW by assumption. destruct s as [|c s]; [congruence|]. inversion G2; subst. destruct c; try reflexivity; discriminate. }
  cbn [obind]. rewrite rargument_ok by (assumption || lia). cbn [obind].
  destruct (try_first (xb_abort b) r Hr) as (T1 & T2 & T3 & T4). cbv zeta in *.
  rewrite arguments_ok; [|assumption|lia|intros; apply K2; [lia|assumption]|].
  2: { destruct (xb_redirections b) as [|rd l]; [exact T2|]. cbn [map concat]. rewrite <- !app_assoc.
       destruct rd as [z t|[] a]; cbn [xredirection_text]; try reflexivity.
       destruct (int_first z) as (c & w & -> & Hc). destruct Hc as [->|Hc]; [reflexivity|]. destruct c; try reflexivity; discriminate. }
  cbn [obind].
  rewrite (rmany_ok goes_redirection (blank_redirection k) (fun r => bs " " ++ xredirection_text X r) bare_redirection); [|lia|exact T3| |].
  2: { intros rd r' Hi Hr'. unfold blank_redirection. rewrite <- app_assoc, strip_app. cbn [obind]. apply rredirection_ok.
       - rewrite Forall_forall in H4. auto.
       - apply K3; [lia|assumption].
       - destruct Hr' as [->|(y & t & _ & ->)]; [exact T4|reflexivity]. }
  2: { intros rd t Hi. destruct rd as [z u|[] a]; cbn [xredirection_text]; try reflexivity.
       destruct (int_first z) as (c & w & -> & Hc). destruct Hc as [->|Hc]; [reflexivity|]. destruct c; try reflexivity; discriminate. }
  cbn [obind]. rewrite T1. rewrite Bool.negb_involutive. reflexivity.
Qed.

Lemma basic_command b k r : legible_basic (x_escape X) b -> rcommand k (xbasic_text X b ++ r) = rpipeline k (xbasic_text X b ++ r).
Proof.
  intros (_ & H & _). unfold xbasic_text. rewrite <- !app_assoc. destruct (xb_env b) as [|[u a] l]; cbn [map concat].
  - destruct (argument_first (xb_program b)) as [t ->]. reflexivity.
  - inversion H as [|? ? [G _] _]; subst. cbn [fst snd] in *. rewrite yellow_p, <- !app_assoc. destruct u as [s|s p]; cbn [xunit_text].
    + destruct G as [G1 G2]. rewrite KW by assumption. unfold rcommand. rewrite span_app by (assumption || reflexivity).
      destruct s; [congruence|]. reflexivity.
    + reflexivity.
Qed.
Lemma rcommand_ok c : legible_command (x_escape X) c -> exists k0, forall k, k0 <= k -> forall r, after_command r ->
  rcommand k (xcommand_text X c ++ r) = Some (bare_command c, r).
Proof.
  destruct c as [b args abort p|head tail]; cbn [legible_command xcommand_text]; intros H.
  - destruct (common (fun k a => length (xa_parts a) < k) args) as [k1 K1].
    { intros a _. exists (S (length (xa_parts a))). intros; lia. }
    exists (k1 + S (length args)). intros k Hk r Hr.
    pose (rest := concat (map (fun a => bs " " ++ xargument_text X a) args) ++
                  (if abort then bs " " ++ command_operator_text X CTry else []) ++ r).
    destruct (try_first (negb abort) r (or_introl Hr)) as (T1 & T2 & T3 & T4). cbv zeta in *.
    rewrite Bool.negb_involutive in T1.
    assert (E : (if negb abort then [] else bs " " ++ command_operator_text X CTry) = (if abort then bs " " ++ command_operator_text X CTry else []))
      by now destruct abort.
    rewrite E in *. clear E.
    assert (G1 : stops word_byte rest /\ begins (bs "=") rest = false).
    { unfold rest. destruct args; cbn [map concat app].
      - destruct abort; [split; reflexivity|]. cbn [app]. destruct Hr as [->|(t & [->|[->| ->]])]; split; reflexivity.
      - split; reflexivity. }
    destruct G1 as [G1 G2].
    assert (G3 : exists w, builtin_text X b = w /\ w <> [] /\ Forall (fun c => word_byte c = true) w /\ builtin_of w = Some b).
    { unfold builtin_text. rewrite green_p. eexists. split; [reflexivity|].
      destruct b; (split; [discriminate|]; split; [repeat (constructor; [reflexivity|]); constructor|reflexivity]). }
    destruct G3 as (w & E & W1 & W2 & W3). rewrite E, <- !app_assoc. fold rest. unfold rcommand.
    rewrite span_app by assumption. destruct w as [|c w]; [congruence|]. rewrite G2, W3. cbn [obind]. unfold rest.
    rewrite arguments_ok; [|assumption|lia|intros; apply K1; [lia|assumption]|exact T2].
    cbn [obind]. now rewrite T1.
  - destruct H as [H1 H2]. destruct (rbasic_ok head H1) as [k1 K1].
    destruct (common (fun k b => forall r, after_basic r -> rbasic k (xbasic_text X b ++ r) = Some (bare_basic b, r)) tail) as [k2 K2].
    { intros b Hb. rewrite Forall_forall in H2. apply rbasic_ok. auto. }
    exists (k1 + k2 + S (length tail)). intros k Hk r Hr. rewrite <- app_assoc. rewrite basic_command by assumption.
    unfold rpipeline. rewrite K1; [|lia|].
    2: { destruct tail as [|b l]; [left; exact Hr|]. right. cbn [map concat]. rewrite yellow_p. eexists. rewrite <- !app_assoc. lits. reflexivity. }
    cbn [obind].
    rewrite (rmany_ok (begins (bs " | ")) (rpiped k) (fun b => bs " " ++ yellow X (bs "|") ++ bs " " ++ xbasic_text X b) bare_basic); [reflexivity|lia| | |].
    + destruct Hr as [->|(t & [->|[->| ->]])]; reflexivity.
    + intros b r' Hb Hr'. unfold rpiped. rewrite yellow_p. lits. st. apply K2; [lia|assumption|].
      destruct Hr' as [->|(y & t & _ & ->)]; [left; assumption|]. right. rewrite yellow_p. eexists. rewrite <- !app_assoc. lits. reflexivity.
    + intros b t Hb. rewrite yellow_p. reflexivity.
Qed.

Definition fits (c c0 : layout_context) : Prop := c = c0 \/ c = None.
Definition new_line (c : layout_context) (s : bytes) : Prop :=
  match c with Some _ => exists t, s = x0a :: t | None => match s with x0a :: _ => False | _ => True end end.
Lemma detect_ok c c0 s : fits c c0 -> new_line c s -> detect c0 s = c.
Proof.
  intros [->| ->] H; [destruct c0; cbn in H|]; cbn.
  - destruct H as [t ->]. reflexivity.
  - destruct s as [|[] s]; reflexivity || contradiction.
  - destruct s as [|[] s]; reflexivity || contradiction.
Qed.
Lemma step_line c t : new_line c (step c ++ t).
Proof. destruct c; cbn; eauto. Qed.
Lemma step_line' c t : new_line c (step (indent c) ++ t).
Proof. destruct c; cbn; eauto. Qed.

Lemma rblock_ok b : legible_block (x_escape X) b -> exists k0, forall k, k0 <= k -> forall c0 c r, fits c c0 ->
  rblock k c0 (xblock_text X c b ++ r) = Some (bare_block b, r).
Proof.
  intros [H1 H2].
  destruct (common (fun k d => forall r, after_command r -> rcommand k (xcommand_text X d ++ r) = Some (bare_command d, r)) (xc_head b :: xc_tail b)) as [k1 K1].
  { intros d [<-|Hd]; apply rcommand_ok; [assumption|]. rewrite Forall_forall in H2. auto. }
  exists (k1 + S (S (length (xc_tail b)))). intros k Hk c0 c r Hc. unfold xblock_text, rblock. rewrite <- !app_assoc.
  set (rest := sep_by (bs ";") (map (fun d => step (indent c) ++ xcommand_text X d) (xc_head b :: xc_tail b)) ++ step c ++ bs "}" ++ r).
  assert (D : detect c0 rest = c).
  { apply detect_ok; [assumption|]. unfold rest. destruct (xc_tail b); cbn [map sep_by]; rewrite <- !app_assoc; apply step_line'. }
  assert (E : (match block_kind_text (xc_kind b) ++ rest with
     | x7b :: s => Some (Synchronous, s)
     | x26 :: x7b :: s => Some (Asynchronous, s)
     | x24 :: x7b :: s => Some (Ast.Capture, s)
     | _ => None end) = Some (xc_kind b, rest)) by (destruct (xc_kind b); reflexivity).
  rewrite E. cbn [obind]. rewrite D. unfold rest. clear D E rest.
  rewrite (rsep_ok _ _ _ (fun d => step (indent c) ++ xcommand_text X d) bare_command); [|discriminate|cbn; lia| | |].
  - cbn [obind map]. rewrite app_assoc, strip_app. reflexivity.
  - destruct c; reflexivity.
  - intros d r' Hd Hr'. rewrite <- app_assoc, strip_app. cbn [obind]. apply K1; [lia|assumption|].
    right. destruct Hr' as [->|(y & t & _ & ->)].
    + destruct c; cbn; eexists; [right; left; reflexivity|right; right; reflexivity].
    + eexists. left. reflexivity.
  - intros d t Hd. reflexivity.
Qed.

(** ** Frames *)
Lemma captured_into fi s : (match captured_from fi s with Some m => [mkcapture m s] | None => [] end) = into fi s.
Proof.
  unfold captured_from, into. induction (fi_captures fi) as [|c l IH] using rev_ind; [reflexivity|].
  rewrite fold_left_app, filter_app, rev_app_distr. cbn [fold_left filter].
  destruct (cap_to c =? s); [reflexivity|]. exact IH.
Qed.
Definition line_of (fi : frame_info) (s : slot) : nat * option nat * bool :=
  (s, captured_from fi s, match fi_self fi with Some self => self =? s | None => false end).
Lemma find_self fi n : forall a, (match fi_self fi with Some self => a <= self < a + n | None => True end) ->
  option_map (fun x => fst (fst x)) (List.find (fun x => snd x) (map (line_of fi) (seq a n))) = fi_self fi.
Proof.
  induction n as [|n IH]; intros a H; cbn [seq map List.find].
  - cbn. destruct (fi_self fi); [lia|reflexivity].
  - unfold line_of at 1. cbn [snd]. destruct (fi_self fi) as [self|] eqn:E.
    + destruct (Nat.eqb_spec self a) as [->|Ne]; [reflexivity|]. apply IH. lia.
    + apply IH. exact I.
Qed.
Lemma frame_of_ok fi : legible_frame fi -> frame_of (map (line_of fi) (seq 0 (fi_slots fi))) = bare_frame fi.
Proof.
  intros [H1 H2]. unfold frame_of, bare_frame. f_equal.
  - now rewrite map_length, seq_length.
  - rewrite flat_map_concat_map, map_map, <- flat_map_concat_map. apply flat_map_ext. intros s. cbn. apply captured_into.
  - apply find_self. destruct (fi_self fi); [lia|exact I].
Qed.

Lemma rline_ok c fi s r : stops digit r -> begins (bs " self") r = false ->
  rline c (slot_line X c fi s ++ r) = Some (line_of fi s, r).
Proof.
  intros H1 H2. unfold slot_line, rline. fold (prefix c). unfold keyword_text. rewrite !blue_p, <- !app_assoc.
  assert (E : forall t, prefix c ++ bs "let" ++ bs " " ++ t = (prefix c ++ bs "let ") ++ t) by (intros; now rewrite <- app_assoc).
  rewrite E, strip_app. cbn [obind]. clear E.
  rewrite rslot_ok by reflexivity. cbn [obind]. rewrite strip_app. cbn [obind]. unfold line_of.
  set (last := (if match fi_self fi with Some self => self =? s | None => false end then bs " self" else []) ++ r).
  assert (G : stops digit last) by (unfold last; destruct (match fi_self fi with Some self => self =? s | None => false end); [reflexivity|exact H1]).
  assert (G2 : forall x : option nat, match strip (bs " self") last with Some s0 => Some ((s, x, true), s0) | None => Some ((s, x, false), last) end
    = Some ((s, x, match fi_self fi with Some self => self =? s | None => false end), r)).
  { intros x. unfold last. destruct (match fi_self fi with Some self => self =? s | None => false end).
    - now rewrite strip_app.
    - unfold begins in H2. cbn [app]. destruct (strip (bs " self") r); [discriminate|reflexivity]. }
  destruct (captured_from fi s) as [m|].
  - rewrite <- !app_assoc. lits. st. rewrite rslot_ok by assumption. cbn [obind]. apply G2.
  - rewrite strip_app. cbn [obind]. apply G2.
Qed.
Lemma rframe_ok c fi k r : legible_frame fi -> fi_slots fi <= k -> stops digit r -> begins (bs " self") r = false ->
  begins (separator c ++ prefix c ++ bs "let ") r = false -> begins (prefix c ++ bs "let ") r = false ->
  rframe k c (frame_text X c fi ++ r) = Some (bare_frame fi, r).
Proof.
  intros H Hk H1 H2 H3 H4. unfold rframe, frame_text. fold (separator c). rewrite <- frame_of_ok by assumption.
  assert (G : forall s t, exists u, slot_line X c fi s ++ t = (prefix c ++ bs "let ") ++ u).
  { intros s t. unfold slot_line. fold (prefix c). unfold keyword_text. rewrite !blue_p, <- !app_assoc. eexists.
    change (bs "let ") with (bs "let" ++ bs " "). rewrite <- !app_assoc. reflexivity. }
  destruct (fi_slots fi) as [|n].
  - cbn [seq map sep_by app]. now rewrite H4.
  - assert (B : begins (prefix c ++ bs "let ") (sep_by (separator c) (map (slot_line X c fi) (seq 0 (S n))) ++ r) = true).
    { cbn [seq map]. destruct (seq 1 n); cbn [map sep_by]; rewrite <- ?app_assoc; (destruct (G 0 r) as [u E] || idtac);
        match goal with |- context [slot_line X c fi 0 ++ ?t] => destruct (G 0 t) as [v ->] end; apply begins_app. }
    rewrite B. rewrite (rsep_ok _ _ _ (slot_line X c fi) (line_of fi)); [reflexivity|discriminate|now rewrite seq_length| | |].
    + now rewrite H3.
    + intros s r' Hs Hr'. apply rline_ok; (destruct Hr' as [->|(y & t & _ & ->)]; [assumption|]); destruct c; reflexivity.
    + intros s t Hs. destruct (G s t) as [u ->]. rewrite !app_assoc. rewrite <- (app_assoc (separator c)).
      rewrite begins_app. reflexivity.
Qed.

(** ** How expressions begin, and what follows them *)
Definition fine (c : byte) : bool := negb (existsb (Byte.eqb c) [x09; x0a; x20; x65; x6c; x29; x5d]).
Definition safe (c : byte) : bool := existsb (Byte.eqb c) (bs "#'""[@({&$0123456789").
Definition lead (s : bytes) : Prop :=
  (exists c t, s = c :: t /\ safe c = true) \/ (exists d t, s = x2d :: d :: t /\ digit d = true) \/
  (exists w t, In w [bs "nil"; bs "true"; bs "false"; bs "function"; bs "if"] /\ s = w ++ t /\ stops word_byte t).
Lemma lead_app a r : lead a -> stops word_byte r -> lead (a ++ r).
Proof.
  intros [(c & t & -> & H)|[(d & t & -> & H)|(w & t & H & -> & G)]] Hr.
  - left. do 2 eexists. split; [reflexivity|assumption].
  - right; left. do 2 eexists. split; [reflexivity|assumption].
  - right; right. exists w, (t ++ r). rewrite <- app_assoc. repeat split; auto. destruct t; [assumption|exact G].
Qed.
Lemma lead_fine s : lead s -> exists c t, s = c :: t /\ fine c = true.
Proof.
  intros [(c & t & -> & H)|[(d & t & -> & H)|(w & t & H & -> & _)]].
  - exists c, t. split; [reflexivity|]. destruct c; try discriminate H; reflexivity.
  - do 2 eexists. split; reflexivity.
  - cbn [In] in H. decompose [or] H; try contradiction; subst w; do 2 eexists; (split; [reflexivity|reflexivity]).
Qed.
Lemma lead_not s : lead s -> strip (bs "not ") s = None /\ strip (bs "- ") s = None.
Proof.
  intros [(c & t & -> & H)|[(d & t & -> & H)|(w & t & H & -> & _)]].
  - destruct c; try discriminate H; split; reflexivity.
  - split; [reflexivity|]. destruct d; try discriminate H; reflexivity.
  - cbn [In] in H. decompose [or] H; try contradiction; subst w; split; reflexivity.
Qed.
Lemma lead_field s re : lead s -> rfield re s = re None s.
Proof.
  intros [(c & t & -> & H)|[(d & t & -> & H)|(w & t & H & -> & G)]]; unfold rfield.
  - destruct (span word_byte (c :: t)) as [w r] eqn:E. assert (is_name w = false) as ->; [|reflexivity].
    cbn [span] in E. destruct (word_byte c) eqn:Ec.
    + destruct (span word_byte t) as [w' r']. injection E as <- <-. cbn [is_name]. destruct c; try discriminate H; try discriminate Ec; reflexivity.
    + now injection E as <- <-.
  - reflexivity.
  - cbn [In] in H. assert (Hw : Forall (fun c => word_byte c = true) w).
    { decompose [or] H; try contradiction; subst w; repeat (constructor; [reflexivity|]); constructor. }
    rewrite span_app by assumption. assert (is_name w = false) as ->; [|reflexivity].
    decompose [or] H; try contradiction; subst w; reflexivity.
Qed.
Lemma lead_plain s re rs n c : lead s -> rstatement re rs n c s = rplain re c s.
Proof.
  intros [(ch & t & -> & H)|[(d & t & -> & H)|(w & t & H & -> & G)]].
  - destruct ch; try discriminate H; reflexivity.
  - reflexivity.
  - cbn [In] in H. decompose [or] H; try contradiction; subst w; reflexivity.
Qed.

Lemma kw k : keyword_text X k = bs match k with
           | KLet => "let" | KIf => "if" | KThen => "then" | KElse => "else" | KElseIf => "elseif"
           | KEnd => "end" | KFor => "for" | KIn => "in" | KDo => "do" | KWhile => "while"
           | KFunction => "function" | KReturn => "return" | KBreak => "break" | KSelf => "self"
           end.
Proof. unfold keyword_text. apply blue_p. Qed.
Lemma name_facts w : is_identifier w -> w <> [] /\ Forall (fun c => word_byte c = true) w /\ is_name w = true /\ stops digit w.
Proof.
  intros ((c & t & -> & Hc) & Hw & Hr). repeat split; [discriminate|assumption| |].
  - cbn [is_name]. rewrite Hc. cbn [andb].
    destruct (existsb (bytes_eqb (c :: t)) [bs "nil"; bs "true"; bs "false"; bs "function"; bs "if"]) eqn:E; [|reflexivity].
    apply existsb_exists in E. destruct E as (x & Hx & E). apply bytes_eqb_eq in E. rewrite E in Hr. exfalso. apply Hr.
    cbn [In] in Hx. decompose [or] Hx; try contradiction; subst x; vm_compute; tauto.
  - cbn. destruct c; try discriminate Hc; reflexivity.
Qed.
Definition legible_field (f : xexpr) : Prop := match f with XFieldName s _ => is_identifier s | _ => legible (x_escape X) fd f end.
Notation leg := (legible (x_escape X) fd).
Notation legs := (legible_statement (x_escape X) fd).

Lemma digit_safe c : digit c = true -> safe c = true.
Proof. destruct c; intros H; try discriminate H; reflexivity. Qed.
Lemma int_lead z : lead (int_text z).
Proof.
  unfold int_text. destruct (z <? 0)%Z.
  - destruct (digits_text (Z.to_N (- z))) as (H1 & H2 & _). right; left. destruct H2 as [|c t Hc _]; [congruence|]. eauto.
  - destruct (digits_text (Z.to_N z)) as (H1 & H2 & _). left. destruct H2 as [|c t Hc _]; [congruence|].
    do 2 eexists. split; [reflexivity|]. now apply digit_safe.
Qed.
(** The text of every construct, for rewriting *)
Lemma t_XIdent c s p : xexpr_text X fd c (XIdent s p) = slot_text X s.
Proof. reflexivity. Qed.
Lemma t_XLit c l p : xexpr_text X fd c (XLit l p) = literal_text X fd l.
Proof. reflexivity. Qed.
Lemma t_XFieldName c s p : xexpr_text X fd c (XFieldName s p) = symbol_text X s.
Proof. reflexivity. Qed.
Lemma t_XArray c items p : xexpr_text X fd c (XArray items p) =
      bs "[" ++ sep_by (bs ",") (map (fun e => step (indent c) ++ xexpr_text X fd (indent c) e) items)
      ++ (match items with [] => [] | _ => step c end) ++ bs "]".
Proof. reflexivity. Qed.
Lemma t_XDict c items p : xexpr_text X fd c (XDict items p) =
      bs "@[" ++ sep_by (bs ",") (map (fun kv =>
        step (indent c) ++ symbol_text X (fst kv) ++ bs ": " ++ xexpr_text X fd (indent c) (snd kv)) items)
      ++ (match items with [] => [] | _ => step c end) ++ bs "]".
Proof. reflexivity. Qed.
Lemma t_XFunction c params fi body p : xexpr_text X fd c (XFunction params fi body p) =
      keyword_text X KFunction ++ bs "(" ++ int_text (Z.of_nat params) ++ bs ")" ++ line_end c
      ++ frame_text X (indent c) fi ++ gap c
      ++ lines (indent c) (map (xstatement_text X fd (indent c)) body)
      ++ step c ++ keyword_text X KEnd.
Proof. reflexivity. Qed.
Lemma t_XUnary c op e p : xexpr_text X fd c (XUnary op e p) =
      bs "(" ++
      (match op with
       | UTry => xexpr_text X fd inlined e ++ bs " " ++ unary_text X op
       | _ => unary_text X op ++ bs " " ++ xexpr_text X fd inlined e
       end) ++ bs ")".
Proof. reflexivity. Qed.
Lemma t_XBinary c l op r p : xexpr_text X fd c (XBinary l op r p) =
      bs "(" ++ xexpr_text X fd inlined l ++ bs " " ++ binary_text X op ++ bs " " ++ xexpr_text X fd inlined r ++ bs ")".
Proof. reflexivity. Qed.
Lemma t_XIf c cond t e p : xexpr_text X fd c (XIf cond t e p) =
      keyword_text X KIf ++ bs " " ++ xexpr_text X fd inlined cond ++ bs " " ++ keyword_text X KThen ++ line_end c
      ++ (match t with [] => [] | _ => lines (indent c) (map (xstatement_text X fd (indent c)) t) ++ gap c end)
      ++ margin c
      ++ (match e with
          | [] => []
          | _ => keyword_text X KElse ++ line_end c ++ lines (indent c) (map (xstatement_text X fd (indent c)) e)
                 ++ gap c ++ margin c
          end)
      ++ keyword_text X KEnd.
Proof. reflexivity. Qed.
Lemma t_XAccess c o f p : xexpr_text X fd c (XAccess o f p) =
      xexpr_text X fd inlined o ++
      (match f with
       | XFieldName _ _ => bs "." ++ xexpr_text X fd inlined f
       | _ => bs "[" ++ xexpr_text X fd inlined f ++ bs "]"
       end).
Proof. reflexivity. Qed.
Lemma t_XCall c f args p : xexpr_text X fd c (XCall f args p) =
      xexpr_text X fd inlined f ++ bs "(" ++ sep_by (bs ", ") (map (xexpr_text X fd inlined) args) ++ bs ")".
Proof. reflexivity. Qed.
Lemma t_XCommand c b p : xexpr_text X fd c (XCommand b p) = xblock_text X c b.
Proof. reflexivity. Qed.
Lemma t_LIdent s p : lvalue_text X fd (LIdent s p) = slot_text X s.
Proof. reflexivity. Qed.
Lemma t_LAccess o f p : lvalue_text X fd (LAccess o f p) = xexpr_text X fd inlined o ++ bs "[" ++ xexpr_text X fd inlined f ++ bs "]".
Proof. reflexivity. Qed.
Lemma t_XAssign c l r : xstatement_text X fd c (XAssign l r) = lvalue_text X fd l ++ bs " = " ++ xexpr_text X fd c r.
Proof. reflexivity. Qed.
Lemma t_XReturn c e : xstatement_text X fd c (XReturn e) = keyword_text X KReturn ++ bs " " ++ xexpr_text X fd c e.
Proof. reflexivity. Qed.
Lemma t_XBreak c : xstatement_text X fd c (XBreak) = keyword_text X KBreak.
Proof. reflexivity. Qed.
Lemma t_XWhile c cond b : xstatement_text X fd c (XWhile cond b) =
      keyword_text X KWhile ++ bs " " ++ xexpr_text X fd inlined cond ++ bs " " ++ keyword_text X KDo ++ gap c
      ++ (match b with [] => [] | _ => lines (indent c) (map (xstatement_text X fd (indent c)) b) ++ gap c end)
      ++ margin c ++ keyword_text X KEnd.
Proof. reflexivity. Qed.
Lemma t_XFor c s e b : xstatement_text X fd c (XFor s e b) =
      keyword_text X KFor ++ bs " " ++ slot_text X s ++ bs " " ++ keyword_text X KIn ++ bs " "
      ++ xexpr_text X fd inlined e ++ bs " " ++ keyword_text X KDo ++ gap c
      ++ (match b with [] => [] | _ => lines (indent c) (map (xstatement_text X fd (indent c)) b) ++ gap c end)
      ++ margin c ++ keyword_text X KEnd.
Proof. reflexivity. Qed.
Lemma t_XExpr c e : xstatement_text X fd c (XExpr e) = xexpr_text X fd c e.
Proof. reflexivity. Qed.
Ltac texts := rewrite ?t_XIdent, ?t_XLit, ?t_XFieldName, ?t_XArray, ?t_XDict, ?t_XFunction, ?t_XUnary, ?t_XBinary, ?t_XIf, ?t_XAccess, ?t_XCall, ?t_XCommand, ?t_LIdent, ?t_LAccess, ?t_XAssign, ?t_XReturn, ?t_XBreak, ?t_XWhile, ?t_XFor, ?t_XExpr.
Lemma lead_ok e : leg e -> forall c, lead (xexpr_text X fd c e).
Proof.
  apply (tree_expr (fun e => leg e -> forall c, lead (xexpr_text X fd c e)) (fun _ => True) (fun _ => True)); clear e; auto;
    intros; texts; cbn [legible] in *.
  - rewrite slot_p. left. do 2 eexists. split; reflexivity.
  - destruct l; cbn [literal_text legible_literal] in *; rewrite ?blue_p.
    1-3: right; right; do 2 eexists; split; [|split; [symmetry; apply app_nil_r|exact I]]; cbn [In]; tauto.
    + apply int_lead.
    + destruct H as (a & b & [Ha1 Ha2] & _ & ->). left. destruct Ha2 as [|ch a Hc _]; [congruence|].
      do 2 eexists. split; [reflexivity|]. now apply digit_safe.
    + left. do 2 eexists. split; reflexivity.
    + left. do 2 eexists. split; reflexivity.
  - contradiction.
  - left. do 2 eexists. split; reflexivity.
  - left. do 2 eexists. split; reflexivity.
  - rewrite kw. right; right. exists (bs "function"). eexists. split; [cbn [In]; tauto|]. split; [reflexivity|reflexivity].
  - left. do 2 eexists. split; reflexivity.
  - left. do 2 eexists. split; reflexivity.
  - rewrite kw. right; right. exists (bs "if"). eexists. split; [cbn [In]; tauto|]. split; [reflexivity|reflexivity].
  - apply lead_app; [now apply H|]. destruct f; reflexivity.
  - apply lead_app; [now apply H|]. reflexivity.
  - unfold xblock_text. left. destruct (xc_kind b); do 2 eexists; split; reflexivity.
Qed.

Lemma lead_statement s : legs s -> forall c, exists ch t, xstatement_text X fd c s = ch :: t /\ fine ch = true.
Proof.
  intros H c. destruct s as [l r|e| |e b|sl e b|e]; texts; cbn [legible_statement] in *; rewrite ?kw.
  - destruct H as [H _]. destruct l as [sl p|o f p]; texts; cbn [legible_lvalue] in *.
    + rewrite slot_p. do 2 eexists. split; reflexivity.
    + destruct (lead_fine _ (lead_ok o (proj1 H) inlined)) as (ch & t & -> & G). do 2 eexists. split; [reflexivity|assumption].
  - do 2 eexists. split; reflexivity.
  - do 2 eexists. split; reflexivity.
  - do 2 eexists. split; reflexivity.
  - do 2 eexists. split; reflexivity.
  - apply lead_fine. now apply lead_ok.
Qed.

Lemma tabs_begins x q ch t : Byte.eqb x ch = false -> ch <> x09 -> x <> x09 -> forall a b,
  begins (repeat x09 a ++ x :: q) (repeat x09 b ++ ch :: t) = false.
Proof.
  intros H1 H2 H3. induction a as [|a IH]; intros [|b]; cbn [repeat app]; unfold begins.
  - now rewrite strip_other.
  - rewrite strip_other; [reflexivity|]. destruct (Byte.eqb x x09) eqn:E; [|reflexivity]. apply byte_dec_bl in E. contradiction.
  - rewrite strip_other; [reflexivity|]. destruct (Byte.eqb x09 ch) eqn:E; [|reflexivity]. apply byte_dec_bl in E. now subst.
  - rewrite strip_cons. apply IH.
Qed.
Lemma fine_facts ch : fine ch = true -> ch <> x09 /\ ch <> x0a /\ Byte.eqb x65 ch = false /\ Byte.eqb x6c ch = false /\ Byte.eqb x29 ch = false /\ Byte.eqb x5d ch = false.
Proof. destruct ch; intros H; try discriminate H; repeat split; discriminate. Qed.
Lemma ends_next c ch t : fine ch = true -> ends c (separator (indent c) ++ prefix (indent c) ++ ch :: t) = false.
Proof.
  intros H. apply fine_facts in H. unfold ends. destruct c as [n|]; [|reflexivity]. cbn [gap margin separator prefix indent option_map].
  unfold begins. cbn [app]. rewrite strip_cons. apply (tabs_begins x65 []); [apply H..|discriminate].
Qed.
Lemma body_next c ch t : fine ch = true -> begins (margin c ++ bs "e") (prefix (indent c) ++ ch :: t) = false.
Proof.
  intros H. apply fine_facts in H. destruct c as [n|]; [|reflexivity]. cbn [margin prefix indent option_map].
  apply (tabs_begins x65 []); [apply H..|discriminate].
Qed.
Lemma function_next c ch t : fine ch = true -> ends c (prefix (indent c) ++ ch :: t) = false.
Proof.
  intros H. apply fine_facts in H. unfold ends. destruct c as [n|]; cbn [gap margin prefix indent option_map app].
  - unfold tabs at 2. destruct (N.to_nat ((n + 1) mod 256)); cbn [repeat app]; unfold begins; rewrite strip_other; try reflexivity.
    destruct (Byte.eqb x0a ch) eqn:E; [|reflexivity]. apply byte_dec_bl in E. destruct H as (_ & H & _). congruence.
  - unfold begins. lits. rewrite strip_cons. now rewrite strip_other.
Qed.
Lemma ends_end c t : ends c (gap c ++ margin c ++ x65 :: t) = true.
Proof. unfold ends. assert (gap c ++ margin c ++ x65 :: t = (gap c ++ margin c ++ bs "e") ++ t) as -> by now rewrite <- !app_assoc. apply begins_app. Qed.

Definition after (r : bytes) : Prop := stops word_byte r /\ forall t, r = x2e :: t -> stops digit t.
Definition fol (r : bytes) : Prop := r = [] \/ exists c t, r = c :: t /\ In c [x20; x29; x5d; x2c; x3b; x0a].
Definition sfol (r : bytes) : Prop := r = [] \/ exists t, r = x0a :: t \/ r = x3b :: t \/ r = x20 :: x65 :: t.
Lemma fol_after r : fol r -> after r.
Proof.
  intros [->|(c & t & -> & H)].
  - split; [exact I|discriminate].
  - cbn [In] in H. decompose [or] H; try contradiction; subst c; (split; [reflexivity|discriminate]).
Qed.
Lemma sfol_fol r : sfol r -> fol r.
Proof. intros [->|(t & [->|[->| ->]])]; [now left|right..]; do 2 eexists; (split; [reflexivity|cbn [In]; tauto]). Qed.
Lemma fol_cons c t : In c [x20; x29; x5d; x2c; x3b; x0a] -> fol (c :: t).
Proof. right. eauto. Qed.
Lemma after_digit r : after r -> stops digit r.
Proof. intros [H _]. destruct r; [exact I|]. cbn in *. unfold word_byte in H. now apply Bool.orb_false_iff in H. Qed.

Definition suffixed (n k : nat) (x : option (xexpr * bytes)) : option (xexpr * bytes) :=
  do (p, s) <- x; rsuffixes (rexpr n) n k p s.
Definition reads (T : layout_context -> bytes) (b : xexpr) : Prop :=
  exists n0 k, forall n m c0 c r, n0 <= n -> fits c c0 -> after r ->
    suffixed n (k + m) (rprimary (rexpr n) (rstat n) n c0 (T c ++ r)) = rsuffixes (rexpr n) n m b r.
Definition is_read (T : layout_context -> bytes) (b : xexpr) : Prop :=
  exists n0, forall n, n0 <= n -> forall c0 c r, fits c c0 -> fol r -> rexpr n c0 (T c ++ r) = Some (b, r).
Lemma suffixes_end n m b r : fol r -> rsuffixes (rexpr n) n (S m) b r = Some (b, r).
Proof.
  intros [->|(c & t & -> & H)]; [reflexivity|]. cbn [In] in H. decompose [or] H; try contradiction; subst c; reflexivity.
Qed.
Lemma reads_read T b : reads T b -> is_read T b.
Proof.
  intros (n0 & k & H). exists (S (S (n0 + k))). intros n Hn c0 c r Hc Hr. destruct n as [|n]; [lia|].
  cbn [rexpr]. replace (rsuffixes (rexpr n) n n) with (rsuffixes (rexpr n) n (k + S (n - k - 1))) by (f_equal; lia).
  change (suffixed n (k + S (n - k - 1)) (rprimary (rexpr n) (rstat n) n c0 (T c ++ r)) = Some (b, r)).
  rewrite H; [|lia|assumption|now apply fol_after]. now apply suffixes_end.
Qed.
Lemma reads_head T b n0 : (forall n c0 c r, n0 <= n -> fits c c0 -> after r -> rprimary (rexpr n) (rstat n) n c0 (T c ++ r) = Some (b, r)) -> reads T b.
Proof. intros H. exists n0, 0. intros n m c0 c r Hn Hc Hr. rewrite H by assumption. reflexivity. Qed.
Lemma reads_suffix T b U b' n1 : reads T b -> (forall r, after (U ++ r)) ->
  (forall n m r, n1 <= n -> after r -> rsuffixes (rexpr n) n (S m) b (U ++ r) = rsuffixes (rexpr n) n m b' r) ->
  reads (fun _ => T None ++ U) b'.
Proof.
  intros (n0 & k & H) HU HS. exists (n0 + n1), (S k). intros n m c0 c r Hn _ Hr. rewrite <- app_assoc.
  replace (S k + m) with (k + S m) by lia. rewrite H; [|lia|now right|apply HU]. apply HS; [lia|assumption].
Qed.

Definition statement_read (s : xstatement) : Prop :=
  exists n0, forall n, n0 <= n -> forall c r, sfol r -> rstat n c (xstatement_text X fd c s ++ r) = Some (bare_statement fd s, r).
Lemma all_forall {A} (f : A -> Prop) l : all_of f l -> Forall f l.
Proof. induction l as [|x l IH]; cbn; intros H; constructor; [apply H|apply IH, H]. Qed.
Lemma all_read {A} (Q : A -> Prop) (f : A -> Prop) l : Forall (fun x => f x -> Q x) l -> all_of f l -> forall x, In x l -> f x /\ Q x.
Proof. intros H G x Hx. apply all_forall in G. rewrite Forall_forall in *. auto. Qed.

Lemma lines_ok l : Forall (fun s => legs s -> statement_read s) l -> all_of legs l -> exists n0, forall n, n0 <= n ->
  forall stop c r, l <> [] -> stop r = true -> sfol r ->
  (forall ch t, fine ch = true -> stop (separator c ++ prefix c ++ ch :: t) = false) ->
  rlines (rstat n) n stop c (lines c (map (xstatement_text X fd c) l) ++ r) = Some (map (bare_statement fd) l, r).
Proof.
  intros H G. pose proof (all_read _ _ _ H G) as A.
  destruct (common (fun n s => forall c r, sfol r -> rstat n c (xstatement_text X fd c s ++ r) = Some (bare_statement fd s, r)) l) as [n0 K].
  { intros s Hs. apply A. assumption. }
  exists (n0 + length l). intros n Hn stop c r Hl Hs Hr Hf. unfold rlines, lines. rewrite map_map. fold (prefix c). fold (separator c).
  rewrite (rsep_ok _ _ _ (fun s => prefix c ++ xstatement_text X fd c s) (bare_statement fd)); [reflexivity|assumption|lia|assumption| |].
  - intros s r' Hin Hr'. rewrite <- app_assoc, strip_app. cbn [obind]. apply K; [lia|assumption|].
    destruct Hr' as [->|(y & t & _ & ->)]; [assumption|]. right. destruct c; cbn [separator app]; eexists; [left|right; left]; reflexivity.
  - intros s t Hin. destruct (lead_statement s (proj1 (A s Hin)) c) as (ch & u & -> & F). rewrite <- !app_assoc. cbn [app]. now apply Hf.
Qed.
Lemma lines_first l c r : l <> [] -> all_of legs l -> exists ch t, lines c (map (xstatement_text X fd c) l) ++ r = prefix c ++ ch :: t /\ fine ch = true.
Proof.
  intros Hl H. destruct l as [|s l]; [congruence|]. destruct H as [H _]. destruct (lead_statement s H c) as (ch & u & E & F).
  unfold lines. cbn [map]. fold (prefix c). rewrite E. exists ch. destruct l; cbn [map sep_by]; rewrite <- ?app_assoc; cbn [app]; eauto.
Qed.
Lemma end_sfol c t : sfol (gap c ++ margin c ++ x65 :: t).
Proof. destruct c; right; cbn; eexists; [left; reflexivity|right; right; reflexivity]. Qed.

Lemma body_ok l : Forall (fun s => legs s -> statement_read s) l -> all_of legs l -> exists n0, forall n, n0 <= n -> forall c r,
  rbody (rstat n) n c ((match l with [] => [] | _ => lines (indent c) (map (xstatement_text X fd (indent c)) l) ++ gap c end) ++ margin c ++ x65 :: r)
  = Some (map (bare_statement fd) l, margin c ++ x65 :: r).
Proof.
  intros H G. destruct (lines_ok l H G) as [n0 K]. exists n0. intros n Hn c r. unfold rbody.
  destruct l as [|s l].
  - cbn [app map]. assert (margin c ++ x65 :: r = (margin c ++ bs "e") ++ r) as E by now rewrite <- app_assoc.
    rewrite E at 1. now rewrite begins_app.
  - rewrite <- app_assoc. set (r' := gap c ++ margin c ++ x65 :: r).
    destruct (lines_first (s :: l) (indent c) r') as (ch & t & E & F); [discriminate|assumption|].
    rewrite E at 1. rewrite body_next by assumption. rewrite K; [|assumption|discriminate|apply ends_end|apply end_sfol|intros; now apply ends_next].
    cbn [obind]. unfold r'. rewrite strip_app. reflexivity.
Qed.

(** ** Expressions *)
Lemma span_none f r : stops f r -> span f r = ([], r).
Proof. intros H. exact (span_app f [] r (Forall_nil _) H). Qed.
Lemma rint_digits a r : all_digits a -> stops digit r -> rint (a ++ r) = Some (decimal_value a, r).
Proof.
  intros [H1 H2] Hr.
  assert (G : rint (a ++ r) = let '(d, r) := span digit (a ++ r) in match d with [] => None | _ => Some (decimal_value d, r) end).
  { destruct H2 as [|c w Hc H2]; [congruence|]. cbn [app]. destruct c; try reflexivity. discriminate Hc. }
  rewrite G, span_app by assumption. destruct a; [congruence|reflexivity].
Qed.
Lemma rnumber_int z r : after r -> rnumber (int_text z ++ r) = Some (LInt z, r).
Proof.
  intros Hr. unfold rnumber. rewrite rint_ok by now apply after_digit. destruct Hr as [_ Hr].
  destruct r as [|c r]; [reflexivity|]. destruct c; try reflexivity. now rewrite (span_none digit r) by now apply Hr.
Qed.
Lemma rnumber_float a b r : all_digits a -> all_digits b -> stops digit r ->
  rnumber (a ++ x2e :: b ++ r) = Some (LFloat (a ++ x2e :: b), r).
Proof.
  intros Ha [Hb1 Hb2] Hr. unfold rnumber. rewrite rint_digits by (assumption || reflexivity).
  rewrite span_app by assumption. rewrite (span_app digit a) by (apply Ha || reflexivity). destruct b; [congruence|reflexivity].
Qed.
Lemma primary_number re rs n c ch t : ch = x2d \/ digit ch = true ->
  rprimary re rs n c (ch :: t) = do (l, s) <- rnumber (ch :: t); Some (XLit l nowhere, s).
Proof. intros [->|H]; [reflexivity|]. destruct ch; try discriminate H; reflexivity. Qed.
Lemma byte_found b : List.find (fun c => bytes_eqb (char_text c) (char_text b)) all_bytes = Some b.
Proof. destruct b; vm_compute; reflexivity. Qed.

Lemma ident_reads s p : reads (fun c => xexpr_text X fd c (XIdent s p)) (bare fd (XIdent s p)).
Proof.
  apply (reads_head _ _ 0). intros n c0 c r _ _ Hr. texts. rewrite slot_p. cbn [app rprimary].
  rewrite rnat_ok by now apply after_digit. reflexivity.
Qed.
Lemma literal_reads l p : legible_literal (x_escape X) fd l -> reads (fun c => xexpr_text X fd c (XLit l p)) (bare fd (XLit l p)).
Proof.
  intros H. apply (reads_head _ _ 0). intros n c0 c r _ _ Hr. texts. cbn [bare].
  destruct l; cbn [literal_text legible_literal bare_literal] in *.
  1-3: rewrite blue_p; lits; cbn [rprimary]; lits; st; reflexivity.
  - match goal with |- context [int_text ?z] => destruct (int_first z) as (ch & t & E & Hc); rewrite E; cbn [app]; rewrite primary_number by assumption;
      change (ch :: t ++ r) with ((ch :: t) ++ r); rewrite <- E, rnumber_int by assumption end. reflexivity.
  - destruct H as (a & b & Ha & Hb & ->). rewrite <- app_assoc. cbn [app].
    assert (E : exists ch u, a = ch :: u /\ digit ch = true) by (destruct Ha as [Ha1 Ha2]; destruct Ha2 as [|ch u Hc _]; [congruence|eauto]).
    destruct E as (ch & u & -> & Hc). cbn [app]. rewrite primary_number by auto.
    change (ch :: u ++ x2e :: b ++ r) with ((ch :: u) ++ x2e :: b ++ r).
    rewrite rnumber_float by (assumption || now apply after_digit). reflexivity.
  - rewrite bold_p. lits. cbn [rprimary]. unfold rbyte. rewrite <- app_assoc. cbn [app].
    rewrite (unspell_app _ _ _ _ H) by reflexivity. lits. st. rewrite byte_found. reflexivity.
  - rewrite bold_p. cbn [app rprimary]. rewrite <- app_assoc. cbn [app]. rewrite (unspell_app _ _ _ _ H) by reflexivity. st. reflexivity.
Qed.
Lemma command_reads b p : legible_block (x_escape X) b -> reads (fun c => xexpr_text X fd c (XCommand b p)) (bare fd (XCommand b p)).
Proof.
  intros H. destruct (rblock_ok b H) as [k0 K]. apply (reads_head _ _ k0). intros n c0 c r Hn Hc _. texts. cbn [bare].
  assert (E : rprimary (rexpr n) (rstat n) n c0 (xblock_text X c b ++ r) = do (b, s) <- rblock n c0 (xblock_text X c b ++ r); Some (XCommand b nowhere, s)).
  { unfold xblock_text. destruct (xc_kind b); reflexivity. }
  rewrite E, K by assumption. reflexivity.
Qed.

Notation T e := (fun c => xexpr_text X fd c e).
Notation eread e := (is_read (T e) (bare fd e)).

Lemma array_reads l p : Forall (fun e => leg e -> eread e) l -> all_of leg l -> reads (T (XArray l p)) (bare fd (XArray l p)).
Proof.
  intros H G. pose proof (all_read _ _ _ H G) as A.
  destruct (common (fun n e => forall c0 c r, fits c c0 -> fol r -> rexpr n c0 (xexpr_text X fd c e ++ r) = Some (bare fd e, r)) l) as [n0 K].
  { intros e He. apply A. assumption. }
  apply (reads_head _ _ (n0 + length l)). intros n c0 c r Hn Hc _. texts. cbn [bare]. lits. cbn [rprimary]. unfold rarray.
  destruct l as [|e l]; [lits; st; reflexivity|].
  rewrite <- !app_assoc.
  match goal with |- context [strip (bs "]") ?s] => set (s0 := s) end.
  assert (E : exists t, s0 = step (indent c) ++ t).
  { unfold s0. destruct l; cbn [map sep_by]; rewrite <- ?app_assoc; eauto. }
  destruct E as [u E].
  assert (strip (bs "]") s0 = None) as -> by (rewrite E; destruct c; reflexivity).
  rewrite (detect_ok c c0) by (assumption || (rewrite E; apply step_line')). unfold s0. clear E u s0.
  rewrite (rsep_ok _ _ _ (fun e => step (indent c) ++ xexpr_text X fd (indent c) e) (bare fd)); [|discriminate|lia| | |].
  - cbn [obind]. rewrite app_assoc, strip_app. reflexivity.
  - destruct c; reflexivity.
  - intros x r' Hx Hr'. rewrite <- app_assoc, strip_app. cbn [obind]. apply K; [lia|assumption|now left|].
    destruct Hr' as [->|(y & t & _ & ->)]; [destruct c|]; apply fol_cons; cbn [In]; tauto.
  - intros y t Hy. reflexivity.
Qed.
Lemma dict_reads l p : Forall (fun kv => leg (snd kv) -> eread (snd kv)) l ->
  all_of (fun kv => is_identifier (fst kv) /\ leg (snd kv)) l -> reads (T (XDict l p)) (bare fd (XDict l p)).
Proof.
  intros H G. apply all_forall in G. rewrite Forall_forall in H, G.
  destruct (common (fun n kv => forall c0 c r, fits c c0 -> fol r -> rexpr n c0 (xexpr_text X fd c (snd kv) ++ r) = Some (bare fd (snd kv), r)) l) as [n0 K].
  { intros e He. apply (H e He), (G e He). }
  apply (reads_head _ _ (n0 + length l)). intros n c0 c r Hn Hc _. texts. cbn [bare]. lits. cbn [rprimary]. unfold rdict.
  destruct l as [|e l]; [lits; st; reflexivity|].
  rewrite <- !app_assoc.
  match goal with |- context [strip (bs "]") ?s] => set (s0 := s) end.
  assert (E : exists t, s0 = step (indent c) ++ t).
  { unfold s0. destruct l; cbn [map sep_by]; rewrite <- ?app_assoc; eauto. }
  destruct E as [u E].
  assert (strip (bs "]") s0 = None) as -> by (rewrite E; destruct c; reflexivity).
  rewrite (detect_ok c c0) by (assumption || (rewrite E; apply step_line')). unfold s0. clear E u s0.
  match goal with |- context [sep_by _ (map ?f _)] => rewrite (rsep_ok _ _ _ f (fun kv => (fst kv, bare fd (snd kv)))) end; [|discriminate|lia| | |].
  - cbn [obind]. rewrite app_assoc, strip_app. reflexivity.
  - destruct c; reflexivity.
  - intros x r' Hx Hr'. unfold rentry. rewrite <- !app_assoc, strip_app. cbn [obind].
    destruct (name_facts _ (proj1 (G x Hx))) as (_ & W1 & _). rewrite symbol_p by assumption. rewrite span_app by (assumption || reflexivity).
    lits. st. cbv beta iota. st.
    rewrite K; [reflexivity|lia|assumption|now left|].
    destruct Hr' as [->|(y & t & _ & ->)]; [destruct c|]; apply fol_cons; cbn [In]; tauto.
  - intros y t Hy. reflexivity.
Qed.

Notation sreads l := (Forall (fun s => legs s -> statement_read s) l).
Lemma step_end c t : step c ++ x65 :: t = gap c ++ margin c ++ x65 :: t.
Proof. destruct c; reflexivity. Qed.
Lemma function_reads params fi body p : sreads body -> legible_frame fi -> all_of legs body ->
  reads (T (XFunction params fi body p)) (bare fd (XFunction params fi body p)).
Proof.
  intros H Hf G. destruct (lines_ok body H G) as [n0 K]. apply (reads_head _ _ (n0 + fi_slots fi)). intros n c0 c r Hn Hc _.
  texts. cbn [bare]. rewrite !kw. rewrite <- !app_assoc. lits. cbn [rprimary]. lits. st. unfold rfunction.
  rewrite rnat_ok by reflexivity. cbn [obind]. lits. st.
  set (rest := lines (indent c) (map (xstatement_text X fd (indent c)) body) ++ step c ++ x65 :: x6e :: x64 :: r).
  assert (D : new_line c (line_end c ++ frame_text X (indent c) fi ++ gap c ++ rest)).
  { destruct c as [z|]; cbn [line_end app new_line]; [eauto|]. unfold frame_text. destruct (fi_slots fi) as [|m]; [exact I|].
    cbn [seq map]. destruct (seq 1 m); exact I. }
  rewrite (detect_ok c c0) by assumption. rewrite strip_app. cbn [obind].
  assert (R : exists ch t, (rest = prefix (indent c) ++ ch :: t /\ fine ch = true) \/ rest = gap c ++ margin c ++ x65 :: t).
  { unfold rest. destruct body as [|s body].
    - exists x65. eexists. right. cbn [map]. unfold lines. cbn [map sep_by app]. rewrite step_end. reflexivity.
    - destruct (lines_first (s :: body) (indent c) (step c ++ x65 :: x6e :: x64 :: r)) as (ch & t & E & F); [discriminate|assumption|].
      exists ch, t. left. auto. }
  rewrite rframe_ok; [|assumption|lia|destruct c; reflexivity| | |].
  2: { destruct c; [reflexivity|]. destruct R as (ch & t & [[-> _]| ->]); reflexivity. }
  2: { destruct c as [z|]; [|reflexivity]. cbn [indent option_map separator gap prefix app]. unfold begins. rewrite strip_cons.
       destruct R as (ch & t & [[-> F]| ->]).
       - apply fine_facts in F. cbn [prefix indent option_map]. apply (tabs_begins x6c); [apply F..|discriminate].
       - cbn [gap app]. refine (tabs_begins x6c _ x0a _ eq_refl _ _ _ 0); discriminate. }
  2: { destruct c as [z|]; cbn [indent option_map gap prefix app].
       - refine (tabs_begins x6c _ x0a _ eq_refl _ _ _ 0); discriminate.
       - destruct R as (ch & t & [[-> F]| ->]); reflexivity. }
  cbn [obind]. rewrite strip_app. cbn [obind]. unfold rest.
  destruct body as [|s body].
  - unfold lines. cbn [map sep_by app]. rewrite step_end, ends_end. cbn [obind]. rewrite <- step_end.
    lits. rewrite !strip_two. st. reflexivity.
  - destruct (lines_first (s :: body) (indent c) (step c ++ x65 :: x6e :: x64 :: r)) as (ch & t & E & F); [discriminate|assumption|].
    rewrite E at 1. rewrite function_next by assumption. rewrite step_end.
    rewrite K; [|lia|discriminate|apply ends_end|apply end_sfol|intros; now apply ends_next].
    cbn [obind]. rewrite <- step_end.
    lits. rewrite !strip_two. st. reflexivity.
Qed.

Lemma inlined_read e : eread e -> exists n0, forall n, n0 <= n -> forall r, fol r -> rexpr n None (xexpr_text X fd inlined e ++ r) = Some (bare fd e, r).
Proof. intros [n0 K]. exists n0. intros n Hn r Hr. apply (K n Hn None None); [now left|assumption]. Qed.
Lemma unary_reads op e p : leg e -> eread e -> reads (T (XUnary op e p)) (bare fd (XUnary op e p)).
Proof.
  intros L H. destruct (inlined_read e H) as [n0 K]. apply (reads_head _ _ n0). intros n c0 c r Hn _ _. texts. cbn [bare].
  rewrite <- !app_assoc. lits. cbn [rprimary]. unfold rparen.
  destruct op; unfold unary_text; cbn [operator_text]; rewrite ?blue_p, ?yellow_p; rewrite <- !app_assoc; lits.
  1-2: st; rewrite K by (assumption || (apply fol_cons; cbn [In]; tauto)); cbn [obind]; st; reflexivity.
  pose proof (lead_ok e L inlined) as Le.
  match goal with |- context [strip _ (?a ++ ?b)] => destruct (lead_not (a ++ b) (lead_app a b Le eq_refl)) as [N1 N2] end.
  match type of N1 with context [bs ?s] => let v := eval vm_compute in (bs s) in change (bs s) with v in N1 end.
  match type of N2 with context [bs ?s] => let v := eval vm_compute in (bs s) in change (bs s) with v in N2 end.
  rewrite N2, N1. rewrite K by (assumption || (apply fol_cons; cbn [In]; tauto)). cbn [obind]. st. reflexivity.
Qed.
Lemma binary_reads l op e p : leg l -> eread l -> eread e -> reads (T (XBinary l op e p)) (bare fd (XBinary l op e p)).
Proof.
  intros L H1 H2. destruct (inlined_read l H1) as [n1 K1]. destruct (inlined_read e H2) as [n2 K2].
  apply (reads_head _ _ (n1 + n2)). intros n c0 c r Hn _ _. texts. cbn [bare].
  rewrite <- !app_assoc. lits. cbn [rprimary]. unfold rparen.
  pose proof (lead_ok l L inlined) as Le.
  match goal with |- context [strip _ (?a ++ ?b)] => destruct (lead_not (a ++ b) (lead_app a b Le eq_refl)) as [N1 N2] end.
  rewrite N2, N1. rewrite K1 by (lia || (apply fol_cons; cbn [In]; tauto)). cbn [obind].
  destruct op; unfold binary_text; cbn [operator_text]; rewrite ?blue_p, ?yellow_p; lits; unfold operators; lits; cbn [roperator]; st; cbn [roperator]; st;
    (rewrite K2 by (lia || (apply fol_cons; cbn [In]; tauto)); cbn [obind]; st; reflexivity).
Qed.
Lemma if_reads cond t e p : eread cond -> sreads t -> sreads e -> all_of legs t -> all_of legs e ->
  reads (T (XIf cond t e p)) (bare fd (XIf cond t e p)).
Proof.
  intros Hc Ht He Lt Le. destruct (inlined_read cond Hc) as [n1 K1]. destruct (body_ok t Ht Lt) as [n2 K2]. destruct (lines_ok e He Le) as [n3 K3].
  apply (reads_head _ _ (n1 + n2 + n3)). intros n c0 c r Hn Hf _. texts. cbn [bare]. rewrite !kw.
  rewrite <- !app_assoc. lits. cbn [rprimary]. lits. st. unfold rif.
  rewrite K1 by (lia || (apply fol_cons; cbn [In]; tauto)). cbn [obind]. lits. st.
  set (rest := match e with [] => [] | _ :: _ => _ end ++ _).
  assert (E : exists u, rest = x65 :: u) by (unfold rest; destruct e; cbn [app]; eauto).
  destruct E as [u E].
  match goal with |- context [detect c0 ?s] => assert (D : new_line c s) end.
  { destruct c as [z|]; cbn [line_end app new_line]; [eauto|]. destruct t as [|s t].
    - cbn [margin app]. rewrite E. exact I.
    - destruct (lines_first (s :: t) None []) as (ch & w & G & _); [discriminate|assumption|].
      rewrite app_nil_r in G. cbn [indent option_map]. rewrite G. exact I. }
  rewrite (detect_ok c c0) by assumption. rewrite strip_app. cbn [obind]. rewrite E. 
  match goal with |- context [rbody _ _ _ ?s] => replace s with ((match t with [] => [] | _ => lines (indent c) (map (xstatement_text X fd (indent c)) t) ++ gap c end) ++ margin c ++ x65 :: u) by reflexivity end.
  rewrite K2 by lia. cbn [obind]. rewrite strip_app. cbn [obind]. rewrite <- E. unfold rest. clear E D.
  destruct e as [|s e].
  - cbn [app]. lits. st. reflexivity.
  - rewrite <- ?app_assoc. cbn [app]. lits. st. rewrite <- !app_assoc, strip_app. cbn [obind].
    rewrite K3; [|lia|discriminate|apply ends_end|apply end_sfol|intros; now apply ends_next]. cbn [obind].
    lits. rewrite !strip_two. st. reflexivity.
Qed.

(** The part in brackets after an object *)
Lemma field_read f : legible_field f -> (leg f -> eread f) -> exists n0, forall n, n0 <= n -> forall r,
  rfield (rexpr n) (xexpr_text X fd inlined f ++ x5d :: r) = Some (bare fd f, x5d :: r).
Proof.
  intros H G.
  assert (C : (exists s p, f = XFieldName s p /\ is_identifier s) \/ leg f) by (destruct f; cbn in H; eauto).
  destruct C as [(s & p & -> & Hs)|L].
  - exists 0. intros n _ r. texts. destruct (name_facts s Hs) as (W1 & W2 & W3 & _). rewrite symbol_p by assumption.
    unfold rfield. rewrite span_app by (assumption || reflexivity). now rewrite W3.
  - destruct (inlined_read f (G L)) as [n0 K]. exists n0. intros n Hn r.
    rewrite lead_field by (apply lead_app; [now apply lead_ok|reflexivity]). apply K; [assumption|]. apply fol_cons. cbn [In]. tauto.
Qed.
Lemma bracket_reads To bo f : reads To bo -> legible_field f -> (leg f -> eread f) ->
  reads (fun _ => To None ++ bs "[" ++ xexpr_text X fd inlined f ++ bs "]") (XAccess bo (bare fd f) nowhere).
Proof.
  intros H L G. destruct (field_read f L G) as [n1 K]. apply (reads_suffix _ _ _ _ n1 H).
  - intros r. split; [reflexivity|discriminate].
  - intros n m r Hn Hr. rewrite <- !app_assoc. lits. cbn [rsuffixes]. rewrite K by assumption. cbn [obind]. lits. st. reflexivity.
Qed.
Lemma dot_reads To bo s p : reads To bo -> is_identifier s ->
  reads (fun _ => To None ++ bs "." ++ xexpr_text X fd inlined (XFieldName s p)) (XAccess bo (XFieldName s nowhere) nowhere).
Proof.
  intros H L. destruct (name_facts s L) as (W1 & W2 & W3 & W4). apply (reads_suffix _ _ _ _ 0 H).
  - intros r. split; [reflexivity|]. intros t E. rewrite t_XFieldName, symbol_p in E by assumption. injection E as <-.
    destruct s; [congruence|exact W4].
  - intros n m r Hn Hr. rewrite t_XFieldName, symbol_p, <- !app_assoc by assumption. lits. cbn [rsuffixes].
    rewrite span_app by (assumption || apply Hr). reflexivity.
Qed.
Lemma reads_ext To To' bo : (forall c, To c = To' c) -> reads To bo -> reads To' bo.
Proof. intros E (n0 & k & H). exists n0, k. intros. rewrite <- E. auto. Qed.
Lemma access_reads o f p : reads (T o) (bare fd o) -> legible_field f -> (leg f -> eread f) ->
  reads (T (XAccess o f p)) (bare fd (XAccess o f p)).
Proof.
  intros H L G.
  assert (C : (exists s q, f = XFieldName s q) \/ forall c, xexpr_text X fd c (XAccess o f p) = xexpr_text X fd inlined o ++ bs "[" ++ xexpr_text X fd inlined f ++ bs "]").
  { destruct f; eauto. }
  destruct C as [(s & q & ->)|E].
  - exact (dot_reads _ _ s q H L).
  - eapply reads_ext; [|exact (bracket_reads _ _ f H L G)]. intros c. cbn beta. now rewrite E.
Qed.
Lemma call_reads f l p : reads (T f) (bare fd f) -> Forall (fun e => leg e -> eread e) l -> all_of leg l ->
  reads (T (XCall f l p)) (bare fd (XCall f l p)).
Proof.
  intros H F G. pose proof (all_read _ _ _ F G) as A.
  destruct (common (fun n e => forall r, fol r -> rexpr n None (xexpr_text X fd inlined e ++ r) = Some (bare fd e, r)) l) as [n0 K].
  { intros e He. apply inlined_read. apply A. assumption. }
  apply (reads_ext (fun _ => xexpr_text X fd None f ++ bs "(" ++ sep_by (bs ", ") (map (xexpr_text X fd inlined) l) ++ bs ")")).
  { intros c. now rewrite t_XCall. }
  apply (reads_suffix (T f) (bare fd f) _ _ (n0 + length l) H).
  - intros r. split; [reflexivity|discriminate].
  - intros n m r Hn Hr. rewrite <- !app_assoc. lits. cbn [rsuffixes]. destruct l as [|e l].
    + cbn [map sep_by app]. lits. st. reflexivity.
    + match goal with |- context [strip (bs ")") ?s] => assert (E : strip (bs ")") s = None) end.
      { destruct (lead_fine _ (lead_ok e (proj1 G) inlined)) as (ch & t & E & Fi). apply fine_facts in Fi. lits.
        destruct l; cbn [map sep_by]; rewrite E; cbn [app]; now rewrite strip_other. }
      rewrite E. clear E.
      rewrite (rsep_ok _ _ _ (xexpr_text X fd inlined) (bare fd)); [|discriminate|lia|reflexivity| |].
      * cbn [obind]. lits. st. reflexivity.
      * intros x r' Hx Hr'. apply K; [lia|assumption|]. destruct Hr' as [->|(y & t & _ & ->)]; apply fol_cons; cbn [In]; tauto.
      * intros y t Hy. reflexivity.
Qed.

(** ** Statements *)
Definition lvalue_expr (l : lvalue) : xexpr := match l with LIdent s p => XIdent s p | LAccess o f p => XAccess o f p end.
Lemma lvalue_back l : lvalue_of (lvalue_expr (bare_lvalue fd l)) = Some (bare_lvalue fd l).
Proof. destruct l; reflexivity. Qed.
Lemma lead_lvalue l : legible_lvalue (x_escape X) fd l -> lead (lvalue_text X fd l).
Proof.
  destruct l as [s p|o f p]; intros H; texts.
  - rewrite slot_p. left. do 2 eexists. split; reflexivity.
  - apply lead_app; [|reflexivity]. apply lead_ok. apply H.
Qed.
Notation P := (fun e => leg e -> reads (T e) (bare fd e)).
Lemma all_eread l : Forall P l -> Forall (fun e => leg e -> eread e) l.
Proof. intros H. eapply Forall_impl; [|exact H]. intros e G L. apply reads_read. auto. Qed.
Lemma sfol_assign r : sfol r -> strip (bs " = ") r = None.
Proof. intros [->|(t & [->|[->| ->]])]; reflexivity. Qed.

Lemma rstat_S n c s : rstat (S n) c s = rstatement (rexpr n) (rstat n) n c s.
Proof. reflexivity. Qed.

Lemma assign_read l e : legible_lvalue (x_escape X) fd l -> reads (fun _ => lvalue_text X fd l) (lvalue_expr (bare_lvalue fd l)) ->
  eread e -> statement_read (XAssign l e).
Proof.
  intros L H G. apply reads_read in H. destruct H as [n1 K1]. destruct G as [n2 K2]. exists (S (n1 + n2)). intros n Hn c r Hr.
  destruct n as [|n]; [lia|]. texts. rewrite rstat_S, <- !app_assoc. rewrite lead_plain by (apply lead_app; [now apply lead_lvalue|reflexivity]).
  unfold rplain. lits. rewrite (K1 n ltac:(lia) c c); [|now left|apply fol_cons; cbn [In]; tauto]. cbn [obind]. st. rewrite lvalue_back. cbn [obind].
  rewrite (K2 n ltac:(lia) c c); [|now left|now apply sfol_fol]. reflexivity.
Qed.
Lemma expression_read e : leg e -> eread e -> statement_read (XExpr e).
Proof.
  intros L [n1 K1]. exists (S n1). intros n Hn c r Hr. destruct n as [|n]; [lia|]. texts. rewrite rstat_S.
  assert (Hs : stops word_byte r) by (apply sfol_fol, fol_after in Hr; apply Hr).
  rewrite lead_plain by (apply lead_app; [now apply lead_ok|assumption]).
  unfold rplain. rewrite (K1 n ltac:(lia) c c); [|now left|now apply sfol_fol]. cbn [obind]. now rewrite sfol_assign.
Qed.
Lemma return_read e : eread e -> statement_read (XReturn e).
Proof.
  intros [n1 K1]. exists (S n1). intros n Hn c r Hr. destruct n as [|n]; [lia|]. texts. rewrite rstat_S, kw, <- !app_assoc. lits.
  cbn [rstatement]. lits. st. rewrite (K1 n ltac:(lia) c c); [|now left|now apply sfol_fol]. reflexivity.
Qed.
Lemma while_read e b : eread e -> sreads b -> all_of legs b -> statement_read (XWhile e b).
Proof.
  intros He Hb Lb. destruct (inlined_read e He) as [n1 K1]. destruct (body_ok b Hb Lb) as [n2 K2]. exists (S (n1 + n2)). intros n Hn c r Hr.
  destruct n as [|n]; [lia|]. texts. rewrite rstat_S, !kw, <- !app_assoc. lits.
  cbn [rstatement]. lits. st. unfold rwhile. rewrite K1 by (lia || (apply fol_cons; cbn [In]; tauto)). cbn [obind]. lits. st. rewrite strip_app. cbn [obind].
  rewrite K2 by lia. cbn [obind]. lits. rewrite strip_two. st. reflexivity.
Qed.
Lemma for_read s e b : eread e -> sreads b -> all_of legs b -> statement_read (XFor s e b).
Proof.
  intros He Hb Lb. destruct (inlined_read e He) as [n1 K1]. destruct (body_ok b Hb Lb) as [n2 K2]. exists (S (n1 + n2)). intros n Hn c r Hr.
  destruct n as [|n]; [lia|]. texts. rewrite rstat_S, !kw, <- !app_assoc. lits.
  cbn [rstatement]. lits. st. unfold rfor. rewrite rslot_ok by reflexivity. cbn [obind]. lits. st.
  rewrite K1 by (lia || (apply fol_cons; cbn [In]; tauto)). cbn [obind]. lits. st. rewrite strip_app. cbn [obind].
  rewrite K2 by lia. cbn [obind]. lits. rewrite strip_two. st. reflexivity.
Qed.

Lemma statement_ok s : legs s -> statement_read s.
Proof.
  apply (tree_statement P (fun l => legible_lvalue (x_escape X) fd l -> reads (fun _ => lvalue_text X fd l) (lvalue_expr (bare_lvalue fd l)))
    (fun s => legs s -> statement_read s)); clear s.
  - intros s p _. apply ident_reads.
  - intros l p H. now apply literal_reads.
  - intros s p [].
  - intros l p H L. apply array_reads; [now apply all_eread|exact L].
  - intros l p H L. apply dict_reads; [|exact L]. eapply Forall_impl; [|exact H]. intros kv G Lk. apply reads_read. auto.
  - intros n fi b p H L. apply function_reads; [exact H|apply L|apply L].
  - intros o e p H L. apply unary_reads; [exact L|]. apply reads_read. exact (H L).
  - intros l o r p H1 H2 [L1 L2]. apply binary_reads; [exact L1| |]; apply reads_read; [exact (H1 L1)|exact (H2 L2)].
  - intros c t e p H Ht He (L1 & L2 & L3). apply if_reads; [|exact Ht|exact He|exact L2|exact L3]. apply reads_read. exact (H L1).
  - intros o f p H1 H2 [L1 L2]. apply access_reads; [exact (H1 L1)|destruct f; exact L2|]. intros L. apply reads_read. auto.
  - intros f l p H Hl [L1 L2]. apply call_reads; [exact (H L1)|now apply all_eread|exact L2].
  - intros b p L. now apply command_reads.
  - intros s p _. destruct (ident_reads s p) as (n0 & k & H). exists n0, k. intros. now apply (H n m c0 c).
  - intros o f p H1 H2 [L1 L2]. apply (bracket_reads (T o) (bare fd o)); [exact (H1 L1)|destruct f; exact L2|]. intros L. apply reads_read. auto.
  - intros l r H1 H2 [L1 L2]. apply assign_read; [exact L1|exact (H1 L1)|]. apply reads_read. exact (H2 L2).
  - intros e H L. apply return_read. apply reads_read. exact (H L).
  - intros _. exists 1. intros n Hn c r Hr. destruct n as [|n]; [lia|]. texts. rewrite rstat_S, kw. lits. cbn [rstatement]. lits. st. reflexivity.
  - intros c b H Hb [L1 L2]. apply while_read; [|exact Hb|exact L2]. apply reads_read. exact (H L1).
  - intros s e b H Hb [L1 L2]. apply for_read; [|exact Hb|exact L2]. apply reads_read. exact (H L1).
  - intros e H L. apply expression_read; [exact L|]. apply reads_read. exact (H L).
Qed.

(** ** Programs *)
Definition program_body (p : program) : bytes :=
  frame_text X (Some 0%N) (mkframe_info (pr_root_slots p) [] None)
  ++ step (Some 0%N) ++ lines (Some 0%N) (map (xstatement_text X fd (Some 0%N)) (pr_statements p)).
Lemma program_read p : legible_program (x_escape X) fd p -> exists n0, forall n, n0 <= n -> rprogram n (program_body p) = Some (bare_program fd p).
Proof.
  intros L. destruct (lines_ok (pr_statements p)) as [n0 K]; [|exact L|].
  { rewrite Forall_forall. intros s _. apply statement_ok. }
  exists (n0 + pr_root_slots p). intros n Hn. unfold rprogram, program_body.
  set (rest := lines (Some 0%N) (map (xstatement_text X fd (Some 0%N)) (pr_statements p))).
  assert (R : rest = [] \/ exists ch t, rest = ch :: t /\ fine ch = true).
  { unfold rest. destruct (pr_statements p) as [|s l] eqn:E; [now left|]. right.
    destruct (lines_first (s :: l) (Some 0%N) []) as (ch & t & G & F); [discriminate|unfold legible_program in L; now rewrite E in L|].
    rewrite app_nil_r in G. rewrite G. exists ch, t. auto. }
  rewrite rframe_ok; [|split; [constructor|exact I]|cbn; lia|reflexivity|reflexivity| |reflexivity].
  2: { cbn [separator prefix tabs step N.to_nat repeat app]. unfold begins. rewrite strip_cons. destruct R as [->|(ch & t & -> & F)]; [reflexivity|].
       apply fine_facts in F. lits. now rewrite strip_other. }
  cbn [obind]. rewrite strip_app. cbn [obind bare_frame fi_slots]. unfold bare_program.
  destruct (pr_statements p) as [|s l] eqn:E; [reflexivity|].
  assert (G : rest <> []) by (unfold rest; destruct (lines_first (s :: l) (Some 0%N) []) as (ch & t & G & F); [discriminate|unfold legible_program in L; now rewrite E in L|];
    rewrite app_nil_r in G; rewrite G; discriminate).
  destruct rest as [|c0 t0] eqn:E2; [congruence|]. rewrite <- E2. rewrite <- (app_nil_r rest). unfold rest.
  rewrite K; [reflexivity|lia|discriminate|reflexivity|now left|]. intros ch t _. reflexivity.
Qed.
Lemma shown_apart path p p' : legible_program (x_escape X) fd p -> legible_program (x_escape X) fd p' ->
  program_text X fd path p = program_text X fd path p' -> bare_program fd p = bare_program fd p'.
Proof.
  intros L L' E. unfold program_text in E. repeat apply app_inv_head in E. change (program_body p = program_body p') in E.
  destruct (program_read p L) as [n1 K1]. destruct (program_read p' L') as [n2 K2].
  specialize (K1 (n1 + n2) ltac:(lia)). specialize (K2 (n1 + n2) ltac:(lia)). rewrite E in K1. congruence.
Qed.
End Reading.

(** ** Marks of commands *)
Lemma last_app {A} (a b : list A) d : b <> [] -> last (a ++ b) d = last b d.
Proof.
  intros H. induction a as [|x a IH]; [reflexivity|]. cbn [app]. rewrite <- IH. destruct (a ++ b) eqn:E; [|reflexivity].
  apply app_eq_nil in E. destruct E. contradiction.
Qed.
Lemma marked_last t : marked t -> last t x00 = x3f.
Proof. intros [u ->]. rewrite last_app by discriminate. reflexivity. Qed.
Lemma last_concat {A} (f : A -> bytes) l : (forall x, last (f x) x00 <> x3f) -> (forall x, f x <> []) -> forall a, last a x00 <> x3f ->
  last (a ++ concat (map f l)) x00 <> x3f.
Proof.
  intros H N. induction l as [|x l IH] using rev_ind; intros a Ha; [now rewrite app_nil_r|].
  rewrite map_app, concat_app. cbn [map concat]. rewrite app_nil_r, app_assoc, last_app by apply N. apply H.
Qed.
Lemma last_argument {W} (X : ext W) a : last (xargument_text X a) x00 = x22.
Proof. unfold xargument_text. now rewrite app_assoc, last_app by discriminate. Qed.
Lemma last_digits w : Forall (fun c => digit c = true) w -> w <> [] -> last w x00 <> x3f.
Proof.
  intros H N. induction H as [|c w Hc H IH]; [congruence|]. destruct w; [|apply IH; discriminate].
  cbn. intros ->. discriminate Hc.
Qed.
Lemma last_int z : int_text z <> [] /\ last (int_text z) x00 <> x3f.
Proof.
  unfold int_text. destruct (z <? 0)%Z.
  - destruct (digits_text (Z.to_N (- z))) as (H1 & H2 & _). split; [discriminate|].
    change (x2d :: digits_of (Z.to_N (- z))) with ([x2d] ++ digits_of (Z.to_N (- z))). rewrite last_app by assumption. now apply last_digits.
  - destruct (digits_text (Z.to_N z)) as (H1 & H2 & _). split; [assumption|]. now apply last_digits.
Qed.
Lemma last_redirection {W} (X : ext W) r : xredirection_text X r <> [] /\ last (xredirection_text X r) x00 <> x3f.
Proof.
  assert (A : forall a, xargument_text X a <> []) by (intros a; discriminate).
  destruct r as [z t|[] a]; cbn [xredirection_text].
  - destruct t as [fd|a|a]; cbn [xtarget_text]; (split; [intros E; apply app_eq_nil in E; destruct E as [_ E]; discriminate E|]);
      rewrite app_assoc, last_app by (apply A || apply last_int).
    + apply last_int.
    + now rewrite last_argument.
    + now rewrite last_argument.
  - split; [discriminate|]. rewrite last_app by apply A. now rewrite last_argument.
  - split; [discriminate|]. rewrite last_app by apply A. now rewrite last_argument.
Qed.
Section Marks.
Context {W : Type} (X : ext W).
Hypothesis TTY : x_tty X = false.
Lemma try_p : bs " " ++ command_operator_text X CTry = bs " ?".
Proof. unfold command_operator_text. now rewrite yellow_p. Qed.
Lemma marked_if t (b : bool) : last t x00 <> x3f -> (marked (t ++ (if b then bs " ?" else [])) <-> b = true).
Proof.
  intros H. destruct b; split; intros G.
  - reflexivity.
  - now exists t.
  - rewrite app_nil_r in G. apply marked_last in G. contradiction.
  - discriminate.
Qed.
Lemma basic_marked b : marked (xbasic_text X b) <-> xb_abort b = false.
Proof.
  unfold xbasic_text. rewrite !app_assoc.
  assert (E : (if xb_abort b then [] else bs " " ++ command_operator_text X CTry) = (if negb (xb_abort b) then bs " ?" else []))
    by (destruct (xb_abort b); [reflexivity|apply try_p]).
  rewrite E, marked_if; [now destruct (xb_abort b)|].
  apply last_concat; [| |apply last_concat].
  - intros r. rewrite last_app by apply last_redirection. apply last_redirection.
  - intros r. discriminate.
  - intros a. rewrite last_app by discriminate. now rewrite last_argument.
  - intros a. discriminate.
  - rewrite last_app by discriminate. now rewrite last_argument.
Qed.
Lemma builtin_marked b args abort p : marked (xcommand_text X (XBuiltin b args abort p)) <-> abort = true.
Proof.
  cbn [xcommand_text]. rewrite try_p, app_assoc, marked_if; [tauto|]. apply last_concat.
  - intros a. rewrite last_app by discriminate. now rewrite last_argument.
  - intros a. discriminate.
  - unfold builtin_text. rewrite green_p by assumption. destruct b; discriminate.
Qed.
End Marks.

Lemma analyze_basic_abort c st b st' : analyze_basic c st = Some (Some b, st') -> xb_abort b = bc_abort c.
Proof.
  unfold analyze_basic, bind. destruct (Sema.builtin_of (bc_program c)).
  - destruct (report AsyncBuiltin (bc_pos c) st) as [[? ?]|]; discriminate.
  - destruct (analyze_argument _ _) as [[program s1]|]; [|discriminate].
    destruct (items analyze_env_item _ _) as [[env s2]|]; [|discriminate].
    destruct (items analyze_argument _ _) as [[arguments s3]|]; [|discriminate].
    destruct (items analyze_redirection _ _) as [[redirections s4]|]; [|discriminate].
    unfold ret. intros E. injection E as E _.
    destruct (zip program (zip env (zip arguments redirections))) as [(? & ? & ? & ?)|]; [|discriminate].
    injection E as <-. reflexivity.
Qed.
Lemma analyze_builtin_abort i c st b args abort p st' : analyze_command i c st = Some (Some (XBuiltin b args abort p), st') ->
  abort = bc_abort (cmd_head c).
Proof.
  unfold analyze_command, bind. destruct (Sema.builtin_of _).
  - destruct (_ || _).
    + destruct (report AsyncBuiltin _ st) as [[? ?]|]; discriminate.
    + destruct (items analyze_argument _ _) as [[a s3]|]; [|discriminate]. unfold ret. destruct a; [|discriminate].
      intros E. injection E. congruence.
  - destruct (analyze_basic _ _) as [[head s1]|]; [|discriminate]. destruct (items analyze_basic _ _) as [[tail s2]|]; [|discriminate].
    unfold ret. destruct (zip head tail) as [[? ?]|]; discriminate.
Qed.
Lemma external_mark {W} (X : ext W) c st b st' : x_tty X = false ->
  analyze_basic c st = Some (Some b, st') -> (marked (xbasic_text X b) <-> bc_abort c = false).
Proof. intros T H. rewrite basic_marked by assumption. now rewrite (analyze_basic_abort _ _ _ _ H). Qed.
Lemma builtin_mark {W} (X : ext W) i c st b args abort p st' : x_tty X = false ->
  analyze_command i c st = Some (Some (XBuiltin b args abort p), st') ->
  (marked (xcommand_text X (XBuiltin b args abort p)) <-> bc_abort (cmd_head c) = true).
Proof. intros T H. rewrite builtin_marked by assumption. now rewrite (analyze_builtin_abort _ _ _ _ _ _ _ _ H). Qed.

(** ** Programs printed alike *)
Lemma expansion_alike : exists src src' p p',
  src = bs "{ ls * }" /\ src' = bs "{ ls ""*"" }" /\ compile src = Some p /\ compile src' = Some p' /\
  bare_program (fun t => t) p <> bare_program (fun t => t) p' /\
  forall path, program_text demo_ext (fun t => t) path p = program_text demo_ext (fun t => t) path p'.
Proof.
  do 4 eexists. split; [reflexivity|]. split; [reflexivity|]. split; [vm_compute; reflexivity|]. split; [vm_compute; reflexivity|].
  split; [vm_compute; discriminate|]. intros path. reflexivity.
Qed.
Lemma slot_alike : exists src src' p p',
  src = bs "{ ls $std }" /\ src' = bs "{ ls '${#0}' }" /\ compile src = Some p /\ compile src' = Some p' /\
  bare_program (fun t => t) p <> bare_program (fun t => t) p' /\
  forall path, program_text demo_ext (fun t => t) path p = program_text demo_ext (fun t => t) path p'.
Proof.
  do 4 eexists. split; [reflexivity|]. split; [reflexivity|]. split; [vm_compute; reflexivity|]. split; [vm_compute; reflexivity|].
  split; [vm_compute; discriminate|]. intros path. reflexivity.
Qed.
Lemma float_alike : exists src src' p p',
  src = bs "1.0" /\ src' = bs "1" /\ compile src = Some p /\ compile src' = Some p' /\
  forall float_display path, float_display (bs "1.0") = bs "1" ->
  bare_program float_display p <> bare_program float_display p' /\
  program_text demo_ext float_display path p = program_text demo_ext float_display path p'.
Proof.
  do 4 eexists. split; [reflexivity|]. split; [reflexivity|]. split; [vm_compute; reflexivity|]. split; [vm_compute; reflexivity|].
  intros fd path H. split; [discriminate|]. unfold program_text. do 6 f_equal. unfold lines. cbn [pr_statements map sep_by xstatement_text xexpr_text literal_text].
  exact H.
Qed.
Lemma mark_refuted : exists p p', compile (bs "{ cd ""a"" ? }") = Some p /\ compile (bs "{ cd ""a"" }") = Some p' /\
  forall path, program_text demo_ext (fun t => t) path p =
    bs "Program for " ++ path ++ x0a :: bs "let #0: auto" ++ x0a :: bs "{" ++ x0a :: x09 :: bs "cd ""a""" ++ x0a :: bs "}" /\
  program_text demo_ext (fun t => t) path p' =
    bs "Program for " ++ path ++ x0a :: bs "let #0: auto" ++ x0a :: bs "{" ++ x0a :: x09 :: bs "cd ""a"" ?" ++ x0a :: bs "}".
Proof.
  do 2 eexists. split; [vm_compute; reflexivity|]. split; [vm_compute; reflexivity|]. intros path. split; reflexivity.
Qed.
