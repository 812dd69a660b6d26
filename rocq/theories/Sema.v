(** Model of the static semantic analyser: src/semantic/mod.rs and src/semantic/scope.rs. *)
From Coq Require Import Strings.String.
From Verif Require Import Base Lexer Ast Program.

(** src/semantic/error/mod.rs 7-38 *)
Inductive serror_kind :=
| UndeclaredVariable (s : symbol)
| DuplicateVariable (s : symbol)
| DuplicateKey (s : symbol)
| ReturnOutsideFunction
| SelfOutsideFunction
| TryOutsideFunction
| BreakOutsideLoop
| InvalidAssignment
| AsyncBuiltin.
(** src/semantic/error/mod.rs 35-38 *)
Record serror := mkserror { se_kind : serror_kind; se_pos : pos }.

(** ** scope.rs *)

(** scope.rs 13-15.  The hash map as an association list; keys are never inserted twice. *)
Definition scope := list (symbol * slot).

(** scope.rs 34-36: [HashMap::get] *)
Fixpoint assoc (s : symbol) (l : list (symbol * slot)) : option slot :=
  match l with
  | [] => None
  | (k, v) :: l => if bytes_eqb k s then Some v else assoc s l
  end.

(** scope.rs 21-30 *)
Definition scope_declare (sc : scope) (s : symbol) (ix : slot) : option scope :=
  match assoc s sc with
  | Some _ => None
  | None => Some ((s, ix) :: sc)
  end.

(** scope.rs 45-54.  [scopes]: the innermost first, the frame's root scope last. *)
Record frame := mkframe {
  fr_slots : nat; fr_captures : list capture; fr_self : option slot; fr_scopes : list scope }.

(** scope.rs 59-66 with the [enter_block] of 169-175 *)
Definition frame_new : frame := mkframe 0 [] None [[]].

(** scope.rs 45-54: an update of the field [scopes] *)
Definition set_scopes (f : frame) (sc : list scope) : frame :=
  mkframe (fr_slots f) (fr_captures f) (fr_self f) sc.

(** scope.rs 70-72 *)
Definition frame_enter_block (f : frame) : frame := set_scopes f ([] :: fr_scopes f).

(** scope.rs 77-81.  [None] is the panic of [expect], here and below. *)
Definition frame_exit_block (f : frame) : option frame :=
  match fr_scopes f with
  | [] => None
  | _ :: sc => Some (set_scopes f sc)
  end.

(** scope.rs 86-94.  The inner option: already declared. *)
Definition frame_declare (f : frame) (s : symbol) : option (option (slot * frame)) :=
  match fr_scopes f with
  | [] => None
  | sc :: rest =>
    match scope_declare sc s (fr_slots f) with
    | Some sc' => Some (Some (fr_slots f, mkframe (S (fr_slots f)) (fr_captures f) (fr_self f) (sc' :: rest)))
    | None => Some None
    end
  end.

(** scope.rs 98-105 *)
Fixpoint scopes_resolve (s : symbol) (scs : list scope) : option slot :=
  match scs with
  | [] => None
  | sc :: scs => match assoc s sc with Some ix => Some ix | None => scopes_resolve s scs end
  end.
(** scope.rs 98-105 *)
Definition frame_resolve (f : frame) (s : symbol) : option slot := scopes_resolve s (fr_scopes f).

(** [scopes.first_mut()]: the root scope of a frame and a way to replace it. scope.rs 110-129 *)
Fixpoint root_scope (scs : list scope) : option scope :=
  match scs with [] => None | [sc] => Some sc | _ :: scs => root_scope scs end.
(** scope.rs 110-129 *)
Fixpoint set_root_scope (scs : list scope) (new : scope) : list scope :=
  match scs with [] => [] | [sc] => [new] | sc :: scs => sc :: set_root_scope scs new end.

(** scope.rs 110-129 *)
Definition frame_capture (f : frame) (s : symbol) (parent : slot) : option (slot * frame) :=
  match root_scope (fr_scopes f) with
  | None => None
  | Some sc =>
    match assoc s sc with
    | Some ix => Some (ix, f)
    | None =>
      let ix := fr_slots f in
      Some (ix, mkframe (S ix) (fr_captures f ++ [mkcapture parent ix]) (fr_self f)
                  (set_root_scope (fr_scopes f) ((s, ix) :: sc)))
    end
  end.

(** scope.rs 133-143 *)
Definition frame_self (f : frame) : slot * frame :=
  match fr_self f with
  | Some ix => (ix, f)
  | None => let ix := fr_slots f in (ix, mkframe (S ix) (fr_captures f) (Some ix) (fr_scopes f))
  end.

(** scope.rs 154-162 *)
Definition frame_to_info (f : frame) : frame_info := mkframe_info (fr_slots f) (fr_captures f) (fr_self f).

(** scope.rs 168-169: the stack of frames, innermost first *)
Definition stack := list frame.

(** The identifier given to a captured variable, scope.rs 247-258: the name followed by
    "@closed". *)
Definition closed_symbol (s : symbol) : symbol := (s ++ bs "@closed"%string)%list.

(** scope.rs 233-243: the number of frames inside the one that declares the symbol, and the
    slot there. *)
Fixpoint find_frame (st : stack) (s : symbol) : option (nat * slot) :=
  match st with
  | [] => None
  | f :: st =>
    match frame_resolve f s with
    | Some ix => Some (0, ix)
    | None => match find_frame st s with Some (n, ix) => Some (S n, ix) | None => None end
    end
  end.

(** scope.rs 260-265: capture through the [n] innermost frames, from the outside inwards. *)
Fixpoint install_captures (n : nat) (st : stack) (s : symbol) (ix : slot) : option (slot * stack) :=
  match n, st with
  | O, _ => Some (ix, st)
  | S n, f :: st =>
    match install_captures n st s ix with
    | Some (ix, st) =>
      match frame_capture f s ix with
      | Some (ix, f) => Some (ix, f :: st)
      | None => None
      end
    | None => None
    end
  | S _, [] => None
  end.

(** scope.rs 220-268.  Outer [None]: panic; inner [None]: undeclared. *)
Definition stack_resolve (st : stack) (s : symbol) : option (option (slot * stack)) :=
  match find_frame st s with
  | None => Some None
  | Some (O, ix) => Some (Some (ix, st))
  | Some (n, ix) =>
    match install_captures n st (closed_symbol s) ix with
    | Some r => Some (Some r)
    | None => None
    end
  end.

(** ** The analyser *)

(** semantic/mod.rs 40-55.  [in_function] and [in_loop] are passed as arguments; [dropped] only
    tells the destructor that the frame has been left already. *)
Record sstate := mksstate { ss_stack : stack; ss_keys : list symbol; ss_errors : list serror }.

(** [None]: the analyser panics. The methods of semantic/mod.rs 92-787 with their state *)
Definition M (A : Type) := sstate -> option (A * sstate).
(** semantic/mod.rs 92-787: a result *)
Definition ret {A} (a : A) : M A := fun s => Some (a, s).
(** semantic/mod.rs 92-787: the next step, unless the analyser panicked *)
Definition bind {A B} (m : M A) (k : A -> M B) : M B :=
  fun s => match m s with Some (a, s) => k a s | None => None end.

Declare Scope sema_scope.
Delimit Scope sema_scope with sema.
Notation "x <- m ;; k" := (bind m (fun x => k)) (at level 61, m at next level, right associativity) : sema_scope.
Local Open Scope sema_scope.

(** [Option::zip]. std, used throughout semantic/mod.rs 110-787 *)
Definition zip {A B} (a : option A) (b : option B) : option (A * B) :=
  match a, b with Some a, Some b => Some (a, b) | _, _ => None end.

(** semantic/mod.rs 875-877 *)
Definition report (k : serror_kind) (p : pos) : M unit :=
  fun s => Some (tt, mksstate (ss_stack s) (ss_keys s) (ss_errors s ++ [mkserror k p])).

(** semantic/mod.rs 820-832 and scope.rs 199-201 *)
Definition enter_block : M unit := fun s =>
  match ss_stack s with
  | f :: st => Some (tt, mksstate (frame_enter_block f :: st) (ss_keys s) (ss_errors s))
  | [] => None
  end.
(** semantic/mod.rs 881-887 and scope.rs 205-207 *)
Definition exit_block : M unit := fun s =>
  match ss_stack s with
  | f :: st =>
    match frame_exit_block f with
    | Some f => Some (tt, mksstate (f :: st) (ss_keys s) (ss_errors s))
    | None => None
    end
  | [] => None
  end.
(** scope.rs 174-180 *)
Definition enter_frame : M unit := fun s =>
  Some (tt, mksstate (frame_new :: ss_stack s) (ss_keys s) (ss_errors s)).
(** scope.rs 185-195; the [debug_assert] is not modelled *)
Definition exit_frame : M frame_info := fun s =>
  match ss_stack s with
  | f :: st =>
    match frame_exit_block f with
    | Some f => Some (frame_to_info f, mksstate st (ss_keys s) (ss_errors s))
    | None => None
    end
  | [] => None
  end.

(** scope.rs 218-220 with [map_err(report).ok()] *)
Definition declare (s : symbol) (p : pos) : M (option slot) := fun st =>
  match ss_stack st with
  | f :: rest =>
    match frame_declare f s with
    | Some (Some (ix, f)) => Some (Some ix, mksstate (f :: rest) (ss_keys st) (ss_errors st))
    | Some None => (_ <- report (DuplicateVariable s) p ;; ret None) st
    | None => None
    end
  | [] => None
  end.

(** src/syntax/ast/mod.rs 72-74 *)
Definition is_ill_symbol (s : symbol) : bool := bytes_eqb s ill_symbol.

(** [scope.resolve(..).map_err(report).ok()]. scope.rs 220-268; semantic/mod.rs 229-240 and
    712-730 *)
Definition resolve (s : symbol) (p : pos) : M (option slot) := fun st =>
  match stack_resolve (ss_stack st) s with
  | Some (Some (ix, stk)) => Some (Some ix, mksstate stk (ss_keys st) (ss_errors st))
  | Some None => (_ <- report (UndeclaredVariable s) p ;; ret None) st
  | None => None
  end.

(** scope.rs 272-274 *)
Definition resolve_self : M slot := fun st =>
  match ss_stack st with
  | f :: rest => let (ix, f) := frame_self f in Some (ix, mksstate (f :: rest) (ss_keys st) (ss_errors st))
  | [] => None
  end.

(** semantic/mod.rs 765-788: [analyze_items] goes on after a failure. *)
Section Items.
  Context {A B : Type} (f : A -> M (option B)).
  Fixpoint items (l : list A) : M (option (list B)) :=
    match l with
    | [] => ret (Some [])
    | x :: l =>
      b <- f x ;;
      r <- items l ;;
      ret (match b, r with Some b, Some r => Some (b :: r) | _, _ => None end)
    end.
End Items.

(** semantic/mod.rs 715-736 *)
Definition analyze_unit (u : arg_unit) : M (option xunit) :=
  match u with
  | AULiteral s => ret (Some (XULiteral s))
  | AUDollar s p =>
    if is_ill_symbol s then ret None
    else r <- resolve s p ;; ret (match r with Some ix => Some (XUDollar ix p) | None => None end)
  end.

(** semantic/mod.rs 677-711 *)
Definition analyze_part (p : ast_part) : M (option xpart) :=
  match p with
  | APUnit u => r <- analyze_unit u ;; ret (option_map XPUnit r)
  | APExpansion EHome => ret (Some XPHome)
  | APExpansion EStar => ret (Some XPStar)
  | APExpansion EPercent => ret (Some XPPercent)
  end.

(** [Argument::is_ill_formed], src/syntax/ast/command.rs 84-86 and src/syntax/ast/mod.rs 61-63:
    whether the position is the placeholder. *)
Definition is_ill_pos (p : pos) : bool := N.eqb (line p) 0 && N.eqb (column p) 0.
(** src/syntax/ast/command.rs 83-85 *)
Definition is_ill_argument (a : ast_argument) : bool := is_ill_pos (arg_pos a).

(** semantic/mod.rs 658-674 *)
Definition analyze_argument (a : ast_argument) : M (option xargument) :=
  if is_ill_argument a then ret None
  else
    r <- items analyze_part (arg_parts a) ;;
    ret (match r with Some ps => Some (mkxarg ps (arg_pos a)) | None => None end).

(** semantic/mod.rs 735-761 *)
Definition analyze_redirection (r : redirection) : M (option xredirection) :=
  match r with
  | RIllFormed => ret None
  | ROutputTo src (RFd fd) => ret (Some (XOutput src (XFd fd)))
  | ROutputTo src (ROverwrite a) =>
    a <- analyze_argument a ;; ret (option_map (fun a => XOutput src (XOverwrite a)) a)
  | ROutputTo src (RAppend a) =>
    a <- analyze_argument a ;; ret (option_map (fun a => XOutput src (XAppend a)) a)
  | RInputFrom lit a => a <- analyze_argument a ;; ret (option_map (XInput lit) a)
  end.

(** semantic/mod.rs 642-654: the value is not analysed when the key fails. *)
Definition analyze_env_item (kv : arg_unit * ast_argument) : M (option (xunit * xargument)) :=
  k <- analyze_unit (fst kv) ;;
  match k with
  | None => ret None
  | Some k => v <- analyze_argument (snd kv) ;; ret (match v with Some v => Some (k, v) | None => None end)
  end.

(** program/command.rs 87-115 *)
Definition builtin_of_bytes (s : bytes) : option builtin :=
  if bytes_eqb s (bs "alias"%string) then Some BAlias
  else if bytes_eqb s (bs "cd"%string) then Some BCd
  else if bytes_eqb s (bs "exec"%string) then Some BExec
  else if bytes_eqb s (bs "exec0"%string) then Some BExec0
  else if bytes_eqb s (bs "spawn0"%string) then Some BSpawn0
  else None.
(** program/command.rs 106-115 *)
Definition builtin_of (a : ast_argument) : option builtin :=
  match arg_parts a with
  | [APUnit (AULiteral s)] => builtin_of_bytes s
  | _ => None
  end.

(** semantic/mod.rs 598-635 *)
Definition analyze_basic (c : basic_command) : M (option xbasic) :=
  match builtin_of (bc_program c) with
  | Some _ => _ <- report AsyncBuiltin (bc_pos c) ;; ret None
  | None =>
    program <- analyze_argument (bc_program c) ;;
    env <- items analyze_env_item (bc_env c) ;;
    arguments <- items analyze_argument (bc_arguments c) ;;
    redirections <- items analyze_redirection (bc_redirections c) ;;
    ret (match zip program (zip env (zip arguments redirections)) with
         | Some (program, (env, (arguments, redirections))) =>
           Some (mkxbasic program env arguments redirections (bc_abort c) (bc_pos c))
         | None => None
         end)
  end.

(** semantic/mod.rs 551-594 *)
Definition analyze_command (in_async : bool) (c : command) : M (option xcommand) :=
  match builtin_of (bc_program (cmd_head c)) with
  | Some b =>
    if in_async || negb (match cmd_tail c with [] => true | _ => false end)
       || negb (match bc_redirections (cmd_head c) with [] => true | _ => false end)
    then _ <- report AsyncBuiltin (bc_pos (cmd_head c)) ;; ret None
    else
      args <- items analyze_argument (bc_arguments (cmd_head c)) ;;
      ret (option_map (fun args => XBuiltin b args (bc_abort (cmd_head c)) (bc_pos (cmd_head c))) args)
  | None =>
    head <- analyze_basic (cmd_head c) ;;
    tail <- items analyze_basic (cmd_tail c) ;;
    ret (match zip head tail with Some (head, tail) => Some (XExternal head tail) | None => None end)
  end.

(** semantic/mod.rs 526-547; [is_sync] of src/syntax/ast/command.rs 218-225 *)
Definition is_sync (k : block_kind) : bool := match k with Synchronous => true | _ => false end.
(** semantic/mod.rs 540-558 *)
Definition analyze_command_block (b : command_block) : M (option xblock) :=
  let in_async := negb (is_sync (cb_kind b)) in
  head <- analyze_command in_async (cb_head b) ;;
  tail <- items (analyze_command in_async) (cb_tail b) ;;
  ret (match zip head tail with Some (head, tail) => Some (mkxblock (cb_kind b) head tail) | None => None end).

(** semantic/mod.rs 457-468: [dict_keys.insert] and the error *)
Definition insert_key (s : symbol) (p : pos) : M (option symbol) := fun st =>
  if is_ill_symbol s then ret None st
  else if existsb (bytes_eqb s) (ss_keys st) then (_ <- report (DuplicateKey s) p ;; ret None) st
  else Some (Some s, mksstate (ss_stack st) (s :: ss_keys st) (ss_errors st)).
(** semantic/mod.rs 459: [dict_keys.clear()] *)
Definition clear_keys : M unit := fun st => Some (tt, mksstate (ss_stack st) [] (ss_errors st)).

(** semantic/mod.rs 491-507: parameters are declared one after the other, all of them. *)
Fixpoint declare_params (ps : list (symbol * pos)) : M (option unit) :=
  match ps with
  | [] => ret (Some tt)
  | (s, p) :: ps =>
    r <- (if is_ill_symbol s then ret None else declare s p) ;;
    rs <- declare_params ps ;;
    ret (match r, rs with Some _, Some _ => Some tt | _, _ => None end)
  end.

(** semantic/mod.rs 229-371 (expressions), 427-522 (literals), 104-220 (statements), 88-100
    (blocks).  [fn]: inside a function, [lp]: inside a loop.  The scope of [enter_block],
    [enter_loop] and [enter_frame] is left when the analyser made by them is dropped, written
    out as [exit_block]. *)
Fixpoint analyze_expr (fn lp : bool) (e : expr) : M (option xexpr) :=
  match e with
  | EIllFormed => ret None
  | ESelf p =>
    if fn then ix <- resolve_self ;; ret (Some (XIdent ix p))
    else _ <- report SelfOutsideFunction p ;; ret None
  | EIdent s p =>
    if is_ill_symbol s then ret None
    else r <- resolve s p ;; ret (option_map (fun ix => XIdent ix p) r)
  | ELit l p => ret (Some (XLit l p))
  | EFieldName s p => ret (if is_ill_symbol s then None else Some (XFieldName s p))
  | EArray es p => r <- items (analyze_expr fn lp) es ;; ret (option_map (fun es => XArray es p) r)
  | EDict kvs p =>
    _ <- clear_keys ;;
    r <- items (fun kv =>
           k <- insert_key (fst (fst kv)) (snd (fst kv)) ;;
           v <- analyze_expr fn lp (snd kv) ;;
           ret (zip k v)) kvs ;;
    ret (option_map (fun kvs => XDict kvs p) r)
  | EFunction ps body p =>
    _ <- enter_frame ;;
    r <- declare_params ps ;;
    body <- analyze_block true false body ;;
    fi <- exit_frame ;;
    ret (match zip r body with Some (_, body) => Some (XFunction (List.length ps) fi body p) | None => None end)
  | EUnary op e p =>
    r <- analyze_expr fn lp e ;;
    match r with
    | None => ret None
    | Some e =>
      match op, fn with
      | UTry, false => _ <- report TryOutsideFunction p ;; ret None
      | _, _ => ret (Some (XUnary op e p))
      end
    end
  | EBinary l op r p =>
    l <- analyze_expr fn lp l ;;
    r <- analyze_expr fn lp r ;;
    ret (match zip l r with Some (l, r) => Some (XBinary l op r p) | None => None end)
  | EIf c t e p =>
    c <- analyze_expr fn lp c ;;
    _ <- enter_block ;; t <- analyze_block fn lp t ;; _ <- exit_block ;;
    _ <- enter_block ;; e <- analyze_block fn lp e ;; _ <- exit_block ;;
    ret (match zip c (zip t e) with Some (c, (t, e)) => Some (XIf c t e p) | None => None end)
  | EAccess o f p =>
    o <- analyze_expr fn lp o ;;
    f <- analyze_expr fn lp f ;;
    ret (match zip o f with Some (o, f) => Some (XAccess o f p) | None => None end)
  | ECall f args p =>
    f <- analyze_expr fn lp f ;;
    args <- items (analyze_expr fn lp) args ;;
    ret (match zip f args with Some (f, args) => Some (XCall f args p) | None => None end)
  | ECommand b p => r <- analyze_command_block b ;; ret (option_map (fun b => XCommand b p) r)
  end
with analyze_statement (fn lp : bool) (s : statement) : M (option xstatement) :=
  match s with
  | SIllFormed => ret None
  | SLet id init p =>
    ix <- declare id p ;;
    init <- analyze_expr fn lp init ;;
    ret (match zip ix init with Some (ix, init) => Some (XAssign (LIdent ix p) init) | None => None end)
  | SAssign l r p =>
    (* semantic/mod.rs 377-422, [analyze_lvalue]: [Err(false)] is reported here *)
    l <- match l with
         | EIdent s q =>
           if is_ill_symbol s then _ <- report InvalidAssignment p ;; ret None
           else r <- resolve s q ;; ret (option_map (fun ix => LIdent ix q) r)
         | EAccess o f q =>
           o <- analyze_expr fn lp o ;;
           f <- analyze_expr fn lp f ;;
           ret (match zip o f with Some (o, f) => Some (LAccess o f q) | None => None end)
         | _ => _ <- report InvalidAssignment p ;; ret None
         end ;;
    r <- analyze_expr fn lp r ;;
    ret (match zip l r with Some (l, r) => Some (XAssign l r) | None => None end)
  | SReturn e p =>
    ok <- (if fn then ret (Some tt) else _ <- report ReturnOutsideFunction p ;; ret None) ;;
    e <- analyze_expr fn lp e ;;
    ret (match zip ok e with Some (_, e) => Some (XReturn e) | None => None end)
  | SBreak p =>
    if lp then ret (Some XBreak) else _ <- report BreakOutsideLoop p ;; ret None
  | SWhile c b _ =>
    c <- analyze_expr fn lp c ;;
    _ <- enter_block ;; b <- analyze_block fn true b ;; _ <- exit_block ;;
    ret (match zip c b with Some (c, b) => Some (XWhile c b) | None => None end)
  | SFor id e b p =>
    e <- analyze_expr fn lp e ;;
    _ <- enter_block ;;
    ix <- (if is_ill_symbol id then ret None else declare id p) ;;
    b <- analyze_block fn true b ;;
    _ <- exit_block ;;
    ret (match zip e (zip ix b) with Some (e, (ix, b)) => Some (XFor ix e b) | None => None end)
  | SExpr e => r <- analyze_expr fn lp e ;; ret (option_map XExpr r)
  end
with analyze_block (fn lp : bool) (b : block) : M (option (list xstatement)) :=
  match b with
  | BIllFormed => ret None
  | BBlock ss => items (analyze_statement fn lp) ss
  end.

(** semantic/mod.rs 63-87: what [analyze] gives, or its panic *)
Inductive sema_result :=
| SemaOk (p : program)
| SemaErrors (es : list serror)
| SemaCrash.

(** semantic/mod.rs 63-87 and 794-816 *)
Definition sema (b : block) : sema_result :=
  match (_ <- enter_frame ;;
         _ <- declare (bs "std"%string) (mkpos 0 0) ;;
         r <- analyze_block false false b ;;
         fi <- exit_frame ;;
         ret (r, fi)) (mksstate [] [] []) with
  | None => SemaCrash
  | Some ((Some ss, fi), s) =>
    match ss_errors s with
    | [] => SemaOk (mkprogram ss (fi_slots fi))
    | es => SemaErrors es
    end
  | Some ((None, _), s) => SemaErrors (ss_errors s)
  end.
