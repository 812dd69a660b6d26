(** Asynchronous blocks: src/runtime/command/mod.rs 120-145 and src/runtime/command/exec/join.rs.
    The other models leave the threads to the world around; here they are part of it.  A thread runs
    its block without a break, either when it is started or when it is joined; that threads really
    run side by side with the interpreter, and a step of one between two steps of the other, is not
    modelled. *)
From Verif Require Import Base Program Value StdLib Exec.

(** join.rs 8-11: what a [JoinHandle] stands for, a block still to be run or what it came to,
    [Result<Box<[PipelineErrors]>, Panic>] *)
Inductive job := Waiting (b : eblock) | Ended (r : list (list error_status) + panic).

Section Threads.
Context {W : Type}.
Variable X : ext W.
Variable O : os W.
(** Not in the code: whether thread number [n] runs when it is started; if not, when it is joined *)
Variable early : nat -> bool.

(** command/mod.rs 125-130: the closure.  Built-in commands, which could end the process or crash,
    are refused in these blocks by the analyser (C16); for them something has to be put here. *)
Definition thread (b : eblock) (w : W) : (list (list error_status) + panic) * W :=
  match block_exec X O b IOStdout IOStderr (mkxstate 0 [] w) with
  | Ran es s => (inl es, xs_world s)
  | RIo e p s => (inr (PIo e p), xs_world s)
  | RPanic e s => (inr e, xs_world s)
  | RExit _ s => (inl [], xs_world s)
  | RCrash _ => (inl [], w)
  end.

(** Not in the code: a request made in the world without the threads *)
Definition beside {A} (f : W -> A * W) (w : W * list job) : A * (W * list job) :=
  let '(a, w') := f (fst w) in (a, (w', snd w)).

(** command/mod.rs 125-130: [thread::spawn] *)
Definition start_thread (b : eblock) (w : W * list job) : N * (W * list job) :=
  let n := length (snd w) in
  if early n then
    let '(r, w') := thread b (fst w) in (N.of_nat n, (w', snd w ++ [Ended r]))
  else (N.of_nat n, (fst w, snd w ++ [Waiting b])).

(** join.rs 44-49: the value or the panic *)
Definition deliver (r : list (list error_status) + panic) (h : heap) : value * heap + panic :=
  match r with inl es => inl (block_value X es h) | inr e => inr e end.

(** join.rs 39-49.  The handle of a thread that was never started does not exist. *)
Definition join_thread (i : N) (h : heap) (w : W * list job)
  : (value * heap + panic) * (W * list job) :=
  match nth_error (snd w) (N.to_nat i) with
  | Some (Ended r) => (deliver r h, w)
  | Some (Waiting b) => let '(r, w') := thread b (fst w) in (deliver r h, (w', snd w))
  | None => (inl (VNil, h), w)
  end.

(** Not in the code: the library in a world with threads *)
Definition threads_ext : ext (W * list job) :=
  mkext (W * list job) (x_stack_size X) (x_parse_float X) (x_float_text X) (x_escape X) (x_rank X)
    (x_order X) (x_debug X) (x_tty X) (x_hex_error X) (x_base64_error X)
    (fun d => beside (x_cd X d)) (fun w => x_cwd X (fst w)) (fun k w => x_env X k (fst w))
    (fun k v w => (x_set_env X k v (fst w), snd w))
    (fun t => beside (x_write X t)) (beside (x_read X)) (fun z w => (x_sleep X z (fst w), snd w))
    (beside (x_rand X)) (fun a b => beside (x_rand_int X a b))
    (fun z w => (x_seed X z (fst w), snd w)) (fun t w => x_std_glob X t (fst w))
    (x_json_text X) (x_json_parse X) (x_json_error X) (x_regex_check X) (x_regex_match X)
    (x_regex_split X) (x_regex_replace X) (fun a b w => x_resolve X a b (fst w))
    (fun f w => x_file X f (fst w)) join_thread.

(** Not in the code: the operating system in a world with threads *)
Definition threads_os : os (W * list job) :=
  mkos (W * list job) (fun p w => o_glob O p (fst w)) (fun f m => beside (o_open O f m))
    (beside (o_pipe O)) (fun e => beside (o_dup O e)) (fun t => beside (o_text O t))
    (fun r => beside (o_spawn O r)) (fun r => beside (o_exec O r)) (fun c => beside (o_wait O c))
    (beside (o_captured O)) start_thread.
End Threads.
