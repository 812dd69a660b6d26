(** How command blocks should be made from what is written, and what they ask of the operating
    system, independent of the functions that build and run them. *)
From Coq Require Import Strings.String.
From Verif Require Import Base Lexer Ast Program Value Text StdLib Exec SpecExec.

Section Made.
Context {W : Type} (X : ext W) (fetch : slot -> option value) (h : heap) (w : W) (path : bytes).

(** The arguments that one argument as written gives: one for each combination of the
    alternatives of its parts.  Parts without alternatives (empty arrays) do not count; see C31. *)
Definition in_use (altss : list (list (list gtoken))) : list (list (list gtoken)) :=
  filter (fun alts => match alts with [] => false | _ => true end) altss.
Definition expands (a : xargument) (l : list eargument) : Prop :=
  exists altss, Forall2 (offers X fetch h w) (xa_parts a) altss /\
    match in_use altss with
    | [] => l = []
    | used => Forall2 stands_for l (combinations used) /\
              Forall (fun x => match x with ELiteral _ => existsb wildcard (xa_parts a) = false | EPattern _ => existsb wildcard (xa_parts a) = true end) l
    end.
Definition expands_to (a : xargument) (x : eargument) : Prop := expands a [x].

Inductive variable_as : xunit * xargument -> bytes * eargument -> Prop :=
| va_name s a x : expands_to a x -> variable_as (XULiteral s, a) (s, x)
| va_dollar ix p v s a x : fetch ix = Some v -> scalar_text X v s -> expands_to a x -> variable_as (XUDollar ix p, a) (s, x).

Inductive redirection_as : xredirection -> eredirection -> Prop :=
| re_fd source fd : redirection_as (XOutput source (XFd fd)) (EOutput source (TFd fd))
| re_overwrite source a x : expands_to a x -> redirection_as (XOutput source (XOverwrite a)) (EOutput source (TOverwrite x))
| re_append source a x : expands_to a x -> redirection_as (XOutput source (XAppend a)) (EOutput source (TAppend x))
| re_input literal a x : expands_to a x -> redirection_as (XInput literal a) (EInput literal x).

Definition arguments_as (l : list xargument) (l' : list eargument) : Prop :=
  exists ls, Forall2 expands l ls /\ l' = concat ls.

Definition basic_as (c : xbasic) (e : ebasic) : Prop :=
  expands_to (xb_program c) (eb_program e) /\
  Forall2 variable_as (xb_env c) (eb_env e) /\
  arguments_as (xb_arguments c) (eb_arguments e) /\
  Forall2 redirection_as (xb_redirections c) (eb_redirections e) /\
  eb_abort e = xb_abort c /\ eb_pos e = mkspos path (xb_pos c).

Inductive command_as : xcommand -> ecommand -> Prop :=
| ca_builtin b l l' abort p : arguments_as l l' -> command_as (XBuiltin b l abort p) (EBuiltin b l' abort (mkspos path p))
| ca_external c cs e es : basic_as c e -> Forall2 basic_as cs es -> command_as (XExternal c cs) (EExternal e es).

Definition block_as (b : xblock) (eb : eblock) : Prop :=
  Forall2 command_as (xc_head b :: xc_tail b) (ek_head eb :: ek_tail eb).

(** ** What can be wrong *)

(** The value cannot be part of an argument. *)
Definition no_text (v : value) : Prop := match v with VArr _ | VDict _ | VFun _ | VErr _ _ => True | _ => False end.
Definition not_scalar (v : value) (p : pos) : panic := PTypeError v (bs "nil, bool, int, float, byte or string") (mkspos path p).
Inductive unsuitable (a : xargument) : panic -> Prop :=
| us_value ix p v : In (XPUnit (XUDollar ix p)) (xa_parts a) -> fetch ix = Some v -> no_text v -> (forall l, v <> VArr l) -> unsuitable a (not_scalar v p)
| us_item ix p l v : In (XPUnit (XUDollar ix p)) (xa_parts a) -> fetch ix = Some (VArr l) -> In v (arr_get h l) -> no_text v ->
    unsuitable a (not_scalar v p).
(** Where one argument is needed there is another number.  The panic should say how many
    there are: see C72. *)
Definition not_one (object : bytes) (a : xargument) (count : nat -> nat) (q : panic) : Prop :=
  exists l, expands a l /\ length l <> 1 /\ q = PInvalidCommandArgs object (count (length l)) (mkspos path (xa_pos a)).
Definition bad_single (object : bytes) (a : xargument) (q : panic) : Prop := unsuitable a q \/ not_one object a Nat.pred q.

Definition redirection_argument (r : xredirection) : option xargument :=
  match r with XOutput _ (XFd _) => None | XOutput _ (XOverwrite a) | XOutput _ (XAppend a) | XInput _ a => Some a end.
Inductive bad_basic (c : xbasic) : panic -> Prop :=
| bb_program q : bad_single (bs "program") (xb_program c) q -> bad_basic c q
| bb_name ix p v a : In (XUDollar ix p, a) (xb_env c) -> fetch ix = Some v -> no_text v -> bad_basic c (not_scalar v p)
| bb_env k a q : In (k, a) (xb_env c) -> bad_single (bs "env") a q -> bad_basic c q
| bb_argument a q : In a (xb_arguments c) -> unsuitable a q -> bad_basic c q
| bb_redirection r a q : In r (xb_redirections c) -> redirection_argument r = Some a -> bad_single (bs "redirection") a q -> bad_basic c q.
Definition bad_command (c : xcommand) (q : panic) : Prop :=
  match c with
  | XBuiltin _ l _ _ => exists a, In a l /\ unsuitable a q
  | XExternal c cs => exists b, In b (c :: cs) /\ bad_basic b q
  end.
Definition bad_block (b : xblock) (q : panic) : Prop := exists c, In c (xc_head b :: xc_tail b) /\ bad_command c q.

(** A variable of the block does not exist; see C15. *)
Definition unit_slots (u : xunit) : list slot := match u with XULiteral _ => [] | XUDollar ix _ => [ix] end.
Definition argument_slots (a : xargument) : list slot := flat_map (fun p => match p with XPUnit u => unit_slots u | _ => [] end) (xa_parts a).
Definition basic_slots (c : xbasic) : list slot :=
  argument_slots (xb_program c) ++ flat_map (fun kv => unit_slots (fst kv) ++ argument_slots (snd kv)) (xb_env c) ++
  flat_map argument_slots (xb_arguments c) ++
  flat_map (fun r => match redirection_argument r with Some a => argument_slots a | None => [] end) (xb_redirections c).
Definition command_slots (c : xcommand) : list slot :=
  match c with XBuiltin _ l _ _ => flat_map argument_slots l | XExternal c cs => flat_map basic_slots (c :: cs) end.
Definition block_slots (b : xblock) : list slot := flat_map command_slots (xc_head b :: xc_tail b).
End Made.

(** ** What is asked of the operating system *)
Section Asked.
Context {W : Type} (O : os W).

(** Patterns give the paths they match, relative ones with a leading [./]. *)
Inductive resolves (w : W) : eargument -> list bytes -> Prop :=
| rs_literal s : resolves w (ELiteral s) [s]
| rs_absolute s paths : o_glob O (x2f :: s) w = Some paths -> resolves w (EPattern (x2f :: s)) paths
| rs_relative s paths : (forall t, s <> x2f :: t) -> o_glob O s w = Some paths ->
    resolves w (EPattern s) (map (fun p => bs "./" ++ p) paths).

(** The request for a command whose patterns are resolved in the world [w] *)
Definition requested (w : W) (c : ebasic) (io : stdio) (r : request) : Prop :=
  exists program env arguments,
    resolves w (eb_program c) [program] /\
    Forall2 (fun kx kv => fst kv = fst kx /\ resolves w (snd kx) [snd kv]) (eb_env c) env /\
    Forall2 (resolves w) (eb_arguments c) arguments /\
    r = mkrequest program None env (concat arguments) (Some io).

(** What is named by a redirection *)
Definition file_of (r : eredirection) : option eargument :=
  match r with
  | EOutput _ (TOverwrite a) | EOutput _ (TAppend a) | EInput _ a => Some a
  | EOutput _ (TFd _) => None
  end.
(** [complaint w c e]: something in the command [c] is wrong, in the way that the panic [e] says.
    Program, variables and arguments are resolved in the world [w]; when the redirections are,
    some files may have been opened. *)
Inductive complaint (w : W) (c : ebasic) : panic -> Prop :=
| cp_program l : resolves w (eb_program c) l -> length l <> 1 ->
    complaint w c (PInvalidCommandArgs (bs "program") (length l) (eb_pos c))
| cp_env k a l : In (k, a) (eb_env c) -> resolves w a l -> length l <> 1 ->
    complaint w c (PInvalidCommandArgs (bs "env variable") (length l) (eb_pos c))
| cp_redirection w' r a l : In r (eb_redirections c) -> file_of r = Some a -> resolves w' a l -> length l <> 1 ->
    complaint w c (PInvalidCommandArgs (bs "redirection") (length l) (eb_pos c))
| cp_pattern x : In (EPattern x) (eb_program c :: map snd (eb_env c) ++ eb_arguments c) -> o_glob O x w = None ->
    complaint w c (PInvalidPattern x (eb_pos c))
| cp_file w' r x : In r (eb_redirections c) -> file_of r = Some (EPattern x) -> o_glob O x w' = None ->
    complaint w c (PInvalidPattern x (eb_pos c))
| cp_from fd t : In (EOutput fd t) (eb_redirections c) -> fd <> 1%Z -> fd <> 2%Z ->
    complaint w c (PUnsupportedFd fd (eb_pos c))
| cp_to fd fd' : In (EOutput fd (TFd fd')) (eb_redirections c) -> fd' <> 1%Z -> fd' <> 2%Z ->
    complaint w c (PUnsupportedFd fd' (eb_pos c)).
End Asked.

(** The dict of a capture block *)
Definition captured_in (h : heap) (l : loc) (out err : bytes) (more : list (value * value)) : Prop :=
  nth_error (h_dicts h) l = Some ((VStr (bs "stdout"), VStr out) :: (VStr (bs "stderr"), VStr err) :: more).
