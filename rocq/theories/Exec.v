(** Model of command blocks: src/runtime/command/arg.rs, command/mod.rs, command/exec/mod.rs and
    command/exec/error.rs. *)
From Coq Require Import Strings.String.
From Verif Require Import Base Lexer Ast Program Value Text StdLib.

(** ** Arguments: command/arg.rs *)

(** arg.rs 13-16 *)
Inductive args := Patterns (l : list bytes) | Literals (l : list bytes).

(** arg.rs 165-169 *)
Definition args_default : args := Literals [].

(** arg.rs 159-161 *)
Definition is_pattern_meta (c : byte) : bool :=
  match c with x3f | x2a | x5b | x5d => true | _ => false end.

(** arg.rs 133-156.  The test whether there is anything to escape only avoids a copy. *)
Definition pattern_escape (s : bytes) : bytes :=
  flat_map (fun c => if is_pattern_meta c then [x5b; c; x5d] else [c]) s.

(** arg.rs 20-45: appending to no argument makes one *)
Definition or_empty (l : list bytes) : list bytes := match l with [] => [[]] | _ => l end.

(** arg.rs 20-45 *)
Definition push_literal (s : bytes) (a : args) : args :=
  match a with
  | Patterns l => Patterns (map (fun x => x ++ pattern_escape s) (or_empty l))
  | Literals l => Literals (map (fun x => x ++ s) (or_empty l))
  end.

(** arg.rs 48-78 *)
Definition push_pattern (s : bytes) (a : args) : args :=
  match a with
  | Patterns l => Patterns (map (fun x => x ++ s) (or_empty l))
  | Literals l => Patterns (map (fun x => pattern_escape x ++ s) (or_empty l))
  end.

(** arg.rs 82-130: the first item is appended to the arguments there were, the others to
    copies of them placed after. *)
Definition push_literals (items : list bytes) (a : args) : args :=
  match items with
  | [] => a
  | _ =>
      let grow (f : bytes -> bytes) l :=
        flat_map (fun item => map (fun x => x ++ f item) (or_empty l)) items in
      match a with
      | Patterns l => Patterns (grow pattern_escape l)
      | Literals l => Literals (grow (fun x => x) l)
      end
  end.

(** exec/mod.rs 76-81 *)
Inductive eargument := EPattern (s : bytes) | ELiteral (s : bytes).

(** arg.rs 172-198 *)
Definition args_list (a : args) : list eargument :=
  match a with Patterns l => map EPattern l | Literals l => map ELiteral l end.

(** ** Commands ready to run: exec/mod.rs 122-158, 263-276, 443-460, 559-562 *)
Inductive etarget := TFd (fd : Z) | TOverwrite (a : eargument) | TAppend (a : eargument).
(** exec/mod.rs 134-147 *)
Inductive eredirection :=
| EOutput (source : Z) (target : etarget)
| EInput (literal : bool) (source : eargument).
(** exec/mod.rs 263-276 with the [Builtin] of 152-158 *)
Record ebasic := mkebasic {
  eb_program : eargument;
  eb_env : list (bytes * eargument);
  eb_arguments : list eargument;
  eb_redirections : list eredirection;
  eb_abort : bool;
  eb_pos : spos }.
(** exec/mod.rs 443-460 *)
Inductive ecommand :=
| EBuiltin (b : builtin) (arguments : list eargument) (abort : bool) (p : spos)
| EExternal (head : ebasic) (tail : list ebasic).
(** exec/mod.rs 559-562 *)
Record eblock := mkeblock { ek_head : ecommand; ek_tail : list ecommand }.

(** ** Building commands: command/mod.rs 149-475 *)
Section Build.
Context {W : Type}.
Variable X : ext W.
(** The variables ([None]: the slot does not exist), the heap and the world at the time the
    block is evaluated, and the path of the source. *)
Variable fetch : slot -> option value.
Variable h : heap.
Variable w : W.
Variable path : bytes.

(** [Result] of command/mod.rs 149-475, with the panics of the host *)
Inductive built (A : Type) := Built (a : A) | BPanic (p : panic) | BCrash (c : crash).
Arguments Built {A}.
Arguments BPanic {A}.
Arguments BCrash {A}.

(** Not in the code: [?] *)
Definition bbind {A B} (x : built A) (f : A -> built B) : built B :=
  match x with Built a => f a | BPanic p => BPanic p | BCrash c => BCrash c end.
(** Not in the code: [collect] of [Result]s, in order *)
Definition bmap {A B} (f : A -> built B) : list A -> built (list B) :=
  fix go l :=
    match l with
    | [] => Built []
    | x :: l' => bbind (f x) (fun y => bbind (go l') (fun r => Built (y :: r)))
    end.
(** mem.rs 142-145; a slot that does not exist is a crash *)
Definition bfetch (s : slot) : built value :=
  match fetch s with Some v => Built v | None => BCrash CSlot end.

(** mod.rs 456-474 *)
Definition build_basic_value (v : value) (p : spos) : built bytes :=
  match v with
  | VNil => Built []
  | VBool b => Built (if b then bs "true" else bs "false")
  | VInt z => Built (int_text z)
  | VFloat f => Built (x_float_text X f)
  | VByte b => Built [b]
  | VStr s => Built s
  | VArr _ | VDict _ | VFun _ | VErr _ _ =>
      BPanic (PTypeError v (bs "nil, bool, int, float, byte or string") p)
  end.

(** mod.rs 400-413: [PathBuf::push("")] makes the path end with a slash. *)
Definition home_text : bytes :=
  match x_env X (bs "HOME") w with
  | None => []
  | Some s => match rev s with [] => [] | x2f :: _ => s | _ => s ++ [x2f] end
  end.

(** mod.rs 367-450 *)
Definition build_part (part : xpart) (a : args) : built args :=
  match part with
  | XPUnit (XULiteral s) => Built (push_literal s a)
  | XPUnit (XUDollar s p) =>
      bbind (bfetch s) (fun v =>
      match v with
      | VArr l =>
          bbind (bmap (fun x => build_basic_value x (mkspos path p)) (arr_get h l)) (fun items =>
          Built (push_literals items a))
      | _ => bbind (build_basic_value v (mkspos path p)) (fun s => Built (push_literal s a))
      end)
  | XPHome => Built (push_literal home_text a)
  | XPStar => Built (push_pattern [x2a] a)
  | XPPercent => Built (push_pattern [x3f] a)
  end.
(** mod.rs 361-453: the loop over the parts *)
Fixpoint build_parts (parts : list xpart) (a : args) : built args :=
  match parts with
  | [] => Built a
  | p :: parts' => bbind (build_part p a) (build_parts parts')
  end.
(** mod.rs 361-453 *)
Definition build_argument (a : xargument) : built (list eargument) :=
  bbind (build_parts (xa_parts a) args_default) (fun r => Built (args_list r)).

(** mod.rs 334-358 *)
Definition build_single_argument (object : bytes) (a : xargument) : built eargument :=
  bbind (build_argument a) (fun l =>
  let bad n := BPanic (PInvalidCommandArgs object n (mkspos path (xa_pos a))) in
  match l with
  | [x] => Built x
  | [] => bad 0
  | _ => bad (length l - 1)
  end).

(** mod.rs 247-274 *)
Definition build_env (kv : xunit * xargument) : built (bytes * eargument) :=
  bbind (match fst kv with
         | XULiteral s => Built s
         | XUDollar s p => bbind (bfetch s) (fun v => build_basic_value v (mkspos path p))
         end) (fun k =>
  bbind (build_single_argument (bs "env") (snd kv)) (fun v => Built (k, v))).

(** mod.rs 277-331 *)
Definition build_redirection (r : xredirection) : built eredirection :=
  match r with
  | XOutput source (XFd fd) => Built (EOutput source (TFd fd))
  | XOutput source (XOverwrite a) =>
      bbind (build_single_argument (bs "redirection") a) (fun a =>
      Built (EOutput source (TOverwrite a)))
  | XOutput source (XAppend a) =>
      bbind (build_single_argument (bs "redirection") a) (fun a =>
      Built (EOutput source (TAppend a)))
  | XInput literal a =>
      bbind (build_single_argument (bs "redirection") a) (fun a => Built (EInput literal a))
  end.

(** mod.rs 205-243: the arguments in one list *)
Definition build_arguments (l : list xargument) : built (list eargument) :=
  bbind (bmap build_argument l) (fun ll => Built (concat ll)).

(** mod.rs 205-243 *)
Definition build_basic_command (c : xbasic) : built ebasic :=
  bbind (build_single_argument (bs "program") (xb_program c)) (fun program =>
  bbind (bmap build_env (xb_env c)) (fun env =>
  bbind (build_arguments (xb_arguments c)) (fun arguments =>
  bbind (bmap build_redirection (xb_redirections c)) (fun redirections =>
  Built (mkebasic program env arguments redirections (xb_abort c) (mkspos path (xb_pos c))))))).

(** mod.rs 166-202 *)
Definition build_command (c : xcommand) : built ecommand :=
  match c with
  | XBuiltin b arguments abort p =>
      bbind (build_arguments arguments) (fun arguments =>
      Built (EBuiltin b arguments abort (mkspos path p)))
  | XExternal head tail =>
      bbind (build_basic_command head) (fun head =>
      bbind (bmap build_basic_command tail) (fun tail =>
      Built (EExternal head tail)))
  end.

(** mod.rs 149-163 *)
Definition build_command_block (b : xblock) : built eblock :=
  bbind (build_command (xc_head b)) (fun head =>
  bbind (bmap build_command (xc_tail b)) (fun tail =>
  Built (mkeblock head tail))).
End Build.
Arguments Built {A}.
Arguments BPanic {A}.
Arguments BCrash {A}.

(** ** Running: exec/mod.rs *)

(** One end of a communication channel: the standard streams of the interpreter, the write
    ends of the pipes a capture block reads from, the two ends of pipe number [n] of a
    pipeline, an open file, the read end of a pipe holding the given text. exec/mod.rs 254-258. *)
Inductive endpoint :=
| IOStdin | IOStdout | IOStderr
| IOCaptureOut | IOCaptureErr
| IOPipeRead (n : nat) | IOPipeWrite (n : nat)
| IOFile (handle : N)
| IOText (s : bytes).

(** exec/mod.rs 254-258 *)
Record stdio := mkstdio { io_stdin : endpoint; io_stdout : endpoint; io_stderr : endpoint }.

(** What is asked of [process::Command]; [r_arg0] and [r_io] are only set by some built-ins and
    by external commands. *)
Record request := mkrequest {
  r_program : bytes;
  r_arg0 : option bytes;
  r_env : list (bytes * bytes);
  r_arguments : list bytes;
  r_io : option stdio }.

(** How a child ends: [ExitStatus]. exec/mod.rs 36-70. *)
Inductive wstatus := WCode (z : Z) | WSignal (z : Z) | WOther.

(** exec/mod.rs 321-423: the [OpenOptions] *)
Inductive open_mode := MRead | MOverwrite | MAppend.

(** The operating system; [inl] is the text of an [io::Error]. exec/mod.rs 36-70, 86-116,
    161-237, 279-424 and 465-546. *)
Record os (W : Type) := mkos {
  o_glob : bytes -> W -> option (list bytes);       (* [None]: invalid pattern *)
  o_open : bytes -> open_mode -> W -> (bytes + N) * W;
  o_pipe : W -> option bytes * W;
  o_dup : endpoint -> W -> option bytes * W;
  o_text : bytes -> W -> option bytes * W;          (* pipe, write, newline: lines 347-354 *)
  o_spawn : request -> W -> (bytes + N) * W;
  o_exec : request -> W -> (bytes + Z) * W;         (* [inr]: replaced, with its exit code *)
  o_wait : N -> W -> (bytes + wstatus) * W;
  o_captured : W -> (bytes + (bytes * bytes)) * W;  (* contents of the capture pipes *)
  o_async : eblock -> W -> N * W }.                 (* thread running a block *)
Arguments o_glob {W}. Arguments o_open {W}. Arguments o_pipe {W}. Arguments o_dup {W}.
Arguments o_text {W}. Arguments o_spawn {W}. Arguments o_exec {W}. Arguments o_wait {W}.
Arguments o_captured {W}. Arguments o_async {W}.

(** What has been asked of the operating system, for stating properties. Not in the code. *)
Inductive event :=
| EvOpen (path : bytes) (m : open_mode) (handle : N)
| EvSpawn (r : request) (child : N)
| EvWait (child : N) (r : bytes + wstatus)
| EvExec (r : request)
| EvCd (dir : bytes).

Section Run.
Context {W : Type}.
Variable X : ext W.
Variable O : os W.

(** Not in the code: the number of pipes made so far, the log, and the world *)
Record xstate := mkxstate { xs_pipes : nat; xs_log : list event; xs_world : W }.

(** exec/error.rs 130-136: an IO error at a position, or a Hush panic. *)
Inductive ran (A : Type) :=
| Ran (a : A) (s : xstate)
| RIo (e : bytes) (p : spos) (s : xstate)
| RPanic (p : panic) (s : xstate)
| RExit (code : Z) (s : xstate)
| RCrash (c : crash).
Arguments Ran {A}.
Arguments RIo {A}.
Arguments RPanic {A}.
Arguments RExit {A}.
Arguments RCrash {A}.

(** Not in the code: [?] *)
Definition xbind {A B} (m : xstate -> ran A) (f : A -> xstate -> ran B) (s : xstate) : ran B :=
  match m s with
  | Ran a s => f a s
  | RIo e p s => RIo e p s
  | RPanic p s => RPanic p s
  | RExit c s => RExit c s
  | RCrash c => RCrash c
  end.
Notation "'let*' x := m 'in' k" := (xbind m (fun x => k))
  (at level 200, x pattern, m at level 100, k at level 200).
(** Not in the code: [Ok] *)
Definition xret {A} (a : A) (s : xstate) : ran A := Ran a s.
(** Not in the code: [Err] *)
Definition xpanic {A} (p : panic) (s : xstate) : ran A := RPanic p s.

(** A call to the operating system that may fail. exec/error.rs 139-143. *)
Definition ask {A} (p : spos) (f : W -> (bytes + A) * W) (log : A -> list event) (s : xstate)
  : ran A :=
  match f (xs_world s) with
  | (inr a, w) => Ran a (mkxstate (xs_pipes s) (xs_log s ++ log a) w)
  | (inl e, w) => RIo e p (mkxstate (xs_pipes s) (xs_log s) w)
  end.
(** Not in the code: a call without an answer *)
Definition attempt (f : W -> option bytes * W) (w : W) : (bytes + unit) * W :=
  match f w with (None, w) => (inr tt, w) | (Some e, w) => (inl e, w) end.

(** exec/mod.rs 86-116 *)
Definition resolve (a : eargument) (p : spos) (s : xstate) : ran (list bytes) :=
  match a with
  | ELiteral x => Ran [x] s
  | EPattern x =>
      match o_glob O x (xs_world s) with
      | None => RPanic (PInvalidPattern x p) s
      | Some paths =>
          Ran (match x with x2f :: _ => paths | _ => map (fun y => x2e :: x2f :: y) paths end) s
      end
  end.
(** exec/mod.rs 222-236 *)
Fixpoint resolve_all (l : list eargument) (p : spos) : xstate -> ran (list bytes) :=
  match l with
  | [] => xret []
  | a :: l' =>
      let* x := resolve a p in
      let* r := resolve_all l' p in
      xret (x ++ r)
  end.
(** exec/mod.rs 280-379 and 382-423: an argument that has to be one *)
Definition resolve_one (object : bytes) (a : eargument) (p : spos) : xstate -> ran bytes :=
  let* l := resolve a p in
  match l with
  | [x] => xret x
  | _ => xpanic (PInvalidCommandArgs object (length l) p)
  end.

(** exec/mod.rs 27-31 *)
Record error_status := mkerror { es_description : bytes; es_status : Z; es_pos : spos }.

(** exec/mod.rs 36-70.  A failing [wait] is not an IO error of the block. *)
Definition wait_child (child : N) (p : spos) (s : xstate) : ran (option error_status) :=
  let '(r, w) := o_wait O child (xs_world s) in
  let s := mkxstate (xs_pipes s) (xs_log s ++ [EvWait child r]) w in
  match r with
  | inl e => Ran (Some (mkerror e 127 p)) s
  | inr st =>
      let code := match st with WCode z => z | WSignal z => (z + 255)%Z | WOther => 255%Z end in
      Ran (if (code =? 0)%Z then None
           else Some (mkerror (bs "command returned non-zero") code p)) s
  end.

(** exec/mod.rs 162-220.  Built-ins run in the interpreter's own process with its standard
    streams; the writers given to the command are dropped. *)
Definition builtin_exec (b : builtin) (arguments : list eargument) (p : spos)
  : xstate -> ran (option error_status) :=
  let* l := resolve_all arguments p in
  let bad object n := xpanic (PInvalidCommandArgs object n p) in
  match b with
  | BAlias => fun _ => RCrash CAlias
  | BCd =>
      match l with
      | [] => bad (bs "argument") 0
      | [dir] =>
          let* _ := ask p (attempt (x_cd X dir)) (fun _ => [EvCd dir]) in
          xret None
      | _ => bad (bs "argument") (length l)
      end
  | BExec =>
      match l with
      | [] => bad (bs "argument") 0
      | cmd :: arguments =>
          let r := mkrequest cmd None [] arguments None in
          let* code := ask p (o_exec O r) (fun _ => [EvExec r]) in
          fun s => RExit code s
      end
  | BExec0 =>
      match l with
      | [] => bad (bs "argument") 0
      | [_] => bad (bs "arg0") 0
      | cmd :: arg0 :: arguments =>
          let r := mkrequest cmd (Some arg0) [] arguments None in
          let* code := ask p (o_exec O r) (fun _ => [EvExec r]) in
          fun s => RExit code s
      end
  | BSpawn0 =>
      match l with
      | [] => bad (bs "argument") 0
      | [_] => bad (bs "arg0") 0
      | cmd :: arg0 :: arguments =>
          let r := mkrequest cmd (Some arg0) [] arguments None in
          let* child := ask p (o_spawn O r) (fun c => [EvSpawn r c]) in
          wait_child child p
      end
  end.

(** exec/mod.rs 382-423 *)
Definition resolve_target (t : etarget) (io : stdio) (p : spos) : xstate -> ran endpoint :=
  let open a m :=
    let* path := resolve_one (bs "redirection") a p in
    let* handle := ask p (o_open O path m) (fun handle => [EvOpen path m handle]) in
    xret (IOFile handle) in
  match t with
  | TOverwrite a => open a MOverwrite
  | TAppend a => open a MAppend
  | TFd fd =>
      if (fd =? 1)%Z then
        let* _ := ask p (attempt (o_dup O (io_stdout io))) (fun _ => []) in xret (io_stdout io)
      else if (fd =? 2)%Z then
        let* _ := ask p (attempt (o_dup O (io_stderr io))) (fun _ => []) in xret (io_stderr io)
      else xpanic (PUnsupportedFd fd p)
  end.

(** exec/mod.rs 321-369: the effect of the redirections on the three streams *)
Definition redirect (r : eredirection) (io : stdio) (p : spos) : xstate -> ran stdio :=
  match r with
  | EOutput source target =>
      let* e := resolve_target target io p in
      if (source =? 1)%Z then xret (mkstdio (io_stdin io) e (io_stderr io))
      else if (source =? 2)%Z then xret (mkstdio (io_stdin io) (io_stdout io) e)
      else xpanic (PUnsupportedFd source p)
  | EInput literal a =>
      let* source := resolve_one (bs "redirection") a p in
      let* e :=
        (if literal
         then let* _ := ask p (attempt (o_text O source)) (fun _ => []) in
              xret (IOText (source ++ [x0a]))
         else let* handle := ask p (o_open O source MRead) (fun handle => [EvOpen source MRead handle]) in
              xret (IOFile handle)) in
      xret (mkstdio e (io_stdout io) (io_stderr io))
  end.
(** exec/mod.rs 321-369: the loop *)
Fixpoint redirect_all (rs : list eredirection) (io : stdio) (p : spos) : xstate -> ran stdio :=
  match rs with
  | [] => xret io
  | r :: rs' => let* io := redirect r io p in redirect_all rs' io p
  end.

(** exec/mod.rs 280-312: the loop over the variables *)
Fixpoint resolve_env (l : list (bytes * eargument)) (p : spos)
  : xstate -> ran (list (bytes * bytes)) :=
  match l with
  | [] => xret []
  | (k, a) :: l' =>
      let* v := resolve_one (bs "env variable") a p in
      let* r := resolve_env l' p in
      xret ((k, v) :: r)
  end.

(** exec/mod.rs 280-379: the child *)
Definition basic_exec (c : ebasic) (io : stdio) : xstate -> ran N :=
  let p := eb_pos c in
  let* program := resolve_one (bs "program") (eb_program c) p in
  let* env := resolve_env (eb_env c) p in
  let* arguments := resolve_all (eb_arguments c) p in
  let* io := redirect_all (eb_redirections c) io p in
  let r := mkrequest program None env arguments (Some io) in
  ask p (o_spawn O r) (fun child => [EvSpawn r child]).

(** exec/mod.rs 486-506: [os_pipe::pipe] *)
Definition new_pipe (p : spos) (s : xstate) : ran nat :=
  match o_pipe O (xs_world s) with
  | (None, w) => Ran (xs_pipes s) (mkxstate (S (xs_pipes s)) (xs_log s) w)
  | (Some e, w) => RIo e p (mkxstate (xs_pipes s) (xs_log s) w)
  end.

(** exec/mod.rs 483-506: the commands after the first, last one first; gives the streams for the
    command before and the children in reverse order of the commands. *)
Fixpoint spawn_tail (cmds : list ebasic) (out err : endpoint) (children : list (N * spos * bool))
  : xstate -> ran (endpoint * endpoint * list (N * spos * bool)) :=
  match cmds with
  | [] => xret (out, err, children)
  | c :: cmds' =>
      let* n := new_pipe (eb_pos c) in
      let* child := basic_exec c (mkstdio (IOPipeRead n) out err) in
      let* _ := ask (eb_pos c) (attempt (o_dup O IOStderr)) (fun _ => []) in
      spawn_tail cmds' (IOPipeWrite n) IOStderr (children ++ [(child, eb_pos c, eb_abort c)])
  end.

(** exec/mod.rs 521-536 *)
Fixpoint wait_all (children : list (N * spos * bool)) (abort : bool) (errors : list error_status)
  : xstate -> ran (list error_status * bool) :=
  match children with
  | [] => xret (errors, abort)
  | (child, p, a) :: r =>
      let* e := wait_child child p in
      match e with
      | Some e => wait_all r (abort || a) (errors ++ [e])
      | None => wait_all r abort errors
      end
  end.

(** exec/mod.rs 465-546: the errors of a pipeline and whether to stop *)
Definition command_exec (c : ecommand) (out err : endpoint)
  : xstate -> ran (list error_status * bool) :=
  match c with
  | EBuiltin b arguments abort p =>
      let* e := builtin_exec b arguments p in
      match e with
      | Some e => xret ([e], abort)
      | None => xret ([], false)
      end
  | EExternal head tail =>
      let* (out, err, children) := spawn_tail (rev tail) out err [] in
      let* _ := ask (eb_pos head) (attempt (o_dup O IOStdin)) (fun _ => []) in
      let* child := basic_exec head (mkstdio IOStdin out err) in
      wait_all ((child, eb_pos head, eb_abort head) :: rev children) false []
  end.

(** exec/mod.rs 548-553 *)
Definition command_pos (c : ecommand) : spos :=
  match c with EBuiltin _ _ _ p => p | EExternal head _ => eb_pos head end.

(** exec/mod.rs 587-629, the head being treated as the commands after it *)
Fixpoint commands_exec (cs : list ecommand) (out err : endpoint)
  (errors : list (list error_status)) : xstate -> ran (list (list error_status)) :=
  match cs with
  | [] => xret errors
  | c :: cs' =>
      let* _ := ask (command_pos c) (attempt (o_dup O out)) (fun _ => []) in
      let* _ := ask (command_pos c) (attempt (o_dup O err)) (fun _ => []) in
      let* (es, abort) := command_exec c out err in
      let errors := match es with [] => errors | _ => errors ++ [es] end in
      if abort : bool then xret errors else commands_exec cs' out err errors
  end.

(** exec/mod.rs 566-584: an IO error becomes the only error of the block. *)
Definition block_exec (b : eblock) (out err : endpoint) (s : xstate)
  : ran (list (list error_status)) :=
  match commands_exec (ek_head b :: ek_tail b) out err [] s with
  | RIo e p s => Ran [[mkerror e 127 p]] s
  | r => r
  end.

(** ** Values of blocks: exec/error.rs 103-212 *)

(** error.rs 107-127 *)
Definition status_value (e : error_status) (h : heap) : value * heap :=
  let '(d, h) := new_dict h [(VStr (bs "status"), VInt (es_status e));
                             (VStr (bs "pos"), VStr (spos_text X (es_pos e)))] in
  (VErr (es_description e) d, h).

(** error.rs 164-212: the loop that numbers the errors *)
Fixpoint values_of {A} (f : A -> heap -> value * heap) (l : list A) (h : heap)
  : list value * heap :=
  match l with
  | [] => ([], h)
  | x :: l' =>
      let '(v, h) := f x h in
      let '(r, h) := values_of f l' h in
      (v :: r, h)
  end.

(** error.rs 164-187 and 189-212 *)
Definition many_value {A} (f : A -> heap -> value * heap) (message : bytes) (l : list A)
  (h : heap) : value * heap :=
  match l with
  | [] => (VNil, h)
  | [x] => f x h
  | _ =>
      let '(vs, h) := values_of f l h in
      let '(a, h) := new_arr h vs in
      (VErr message a, h)
  end.
(** error.rs 164-187 *)
Definition pipeline_value (es : list error_status) : heap -> value * heap :=
  many_value status_value (bs "Some commands failed in the pipeline") es.
(** error.rs 189-212 *)
Definition block_value (es : list (list error_status)) : heap -> value * heap :=
  many_value pipeline_value (bs "Some commands failed in the block") es.

(** command/mod.rs 25-146.  [fetch] and [path] as in [Build].  The log is dropped. *)
Definition eval_command_block (fetch : slot -> option value) (path : bytes) (b : xblock)
  (p : spos) (h : heap) (w : W) : outcome (heap * W) value :=
  let start := mkxstate 0 [] w in
  match build_command_block X fetch h w path b with
  | BPanic e => Pan e (h, w)
  | BCrash c => Crash c
  | Built eb =>
      match xc_kind b with
      | Synchronous =>
          match block_exec eb IOStdout IOStderr start with
          | Ran es s => let '(v, h) := block_value es h in Val v (h, xs_world s)
          | RIo e q s => Pan (PIo e q) (h, xs_world s)
          | RPanic e s => Pan e (h, xs_world s)
          | RExit c s => Exit c (h, xs_world s)
          | RCrash c => Crash c
          end
      | Capture =>
          (* two pipes; simplified: made by one request *)
          match o_pipe O w with
          | (Some e, w) => Pan (PIo e p) (h, w)
          | (None, w) =>
              match block_exec eb IOCaptureOut IOCaptureErr (mkxstate 0 [] w) with
              | Ran es s =>
                  let '(v, h) := block_value es h in
                  match o_captured O (xs_world s) with
                  | (inl e, w) => Pan (PIo e p) (h, w)
                  | (inr (out, err), w) =>
                      let captures := [(VStr (bs "stdout"), VStr out);
                                       (VStr (bs "stderr"), VStr err)] in
                      match v with
                      | VErr d c =>
                          let '(d', h) := new_dict h (captures ++ [(VStr (bs "error"), c)]) in
                          Val (VErr d d') (h, w)
                      | _ =>
                          let '(d', h) := new_dict h captures in
                          Val d' (h, w)
                      end
                  end
              | RIo e q s => Pan (PIo e q) (h, xs_world s)
              | RPanic e s => Pan e (h, xs_world s)
              | RExit c s => Exit c (h, xs_world s)
              | RCrash c => Crash c
              end
          end
      | Asynchronous =>
          let '(handle, w) := o_async O eb w in
          let '(st, h) := new_iter h (ISJoin (Some handle)) in
          let '(d, h) := new_dict h [(VStr (bs "join"), VFun (FRust (NJoin st)))] in
          Val d (h, w)
      end
  end.
End Run.
Arguments Ran {W A}.
Arguments RIo {W A}.
Arguments RPanic {W A}.
Arguments RExit {W A}.
Arguments RCrash {W A}.
