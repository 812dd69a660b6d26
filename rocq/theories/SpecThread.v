(** Asynchronous blocks and what may happen between their start and their end. *)
From Verif Require Import Base Lexer Ast Program Value StdLib Exec Runtime SpecExec SpecWait.

(** The requests that may change the world, from the world before to the world after, *)
Inductive asked {W} (X : ext W) (O : os W) (w : W) : W -> Prop :=
| ak_cd d : asked X O w (snd (x_cd X d w))
| ak_set_env k v : asked X O w (x_set_env X k v w)
| ak_write t : asked X O w (snd (x_write X t w))
| ak_read : asked X O w (snd (x_read X w))
| ak_sleep z : asked X O w (x_sleep X z w)
| ak_rand : asked X O w (snd (x_rand X w))
| ak_rand_int a b : asked X O w (snd (x_rand_int X a b w))
| ak_seed z : asked X O w (x_seed X z w)
| ak_join i h : asked X O w (snd (x_join X i h w))
| ak_open f m : asked X O w (snd (o_open O f m w))
| ak_pipe : asked X O w (snd (o_pipe O w))
| ak_dup e : asked X O w (snd (o_dup O e w))
| ak_text t : asked X O w (snd (o_text O t w))
| ak_spawn r : asked X O w (snd (o_spawn O r w))
| ak_exec r : asked X O w (snd (o_exec O r w))
| ak_wait c : asked X O w (snd (o_wait O c w))
| ak_captured : asked X O w (snd (o_captured O w))
| ak_async b : asked X O w (snd (o_async O b w)).

(** and several of them in a row. *)
Inductive reached {W} (X : ext W) (O : os W) : W -> W -> Prop :=
| rc_none w : reached X O w w
| rc_next w w1 w2 : asked X O w w1 -> reached X O w1 w2 -> reached X O w w2.

(** A block run alone, from the world [w], came to errors or to a panic and left the world [w']. *)
Inductive alone {W} (X : ext W) (O : os W) (b : eblock) (w : W) : list (list error_status) + panic -> W -> Prop :=
| al_errors ess s : block_exec X O b IOStdout IOStderr (mkxstate 0 [] w) = Ran ess s -> alone X O b w (inl ess) (xs_world s)
| al_panic e s : block_exec X O b IOStdout IOStderr (mkxstate 0 [] w) = RPanic e s -> alone X O b w (inr e) (xs_world s).

(** No command of the block is built in.  The analyser sees to that in asynchronous blocks (C16). *)
Definition external (b : xblock) : Prop :=
  Forall (fun c => match c with XBuiltin _ _ _ _ => False | XExternal _ _ => True end) (xc_head b :: xc_tail b).

(** The end [o] of a call stands for what the block came to. *)
Definition stands_for_end {W} (X : ext W) (r : list (list error_status) + panic) (o : outcome (heap * W) value) (w : W) : Prop :=
  match r, o with
  | inl ess, Val v (h, w') => reported X h ess v /\ w' = w
  | inr e, Pan e' (_, w') => e' = e /\ w' = w
  | _, _ => False
  end.

(** The same block, not asynchronous *)
Definition waited_at_once (b : xblock) : xblock := mkxblock Synchronous (xc_head b) (xc_tail b).

(** Two ends of evaluations in a world with other parts [J]: the same panic, or values that report the
    same errors; the world is the same but for the other parts, and so are variables and arguments. *)
Definition same_end {W J} (X : ext (W * J)) (r r' : outcome (state (W * J)) flow) : Prop :=
  match r, r' with
  | Val (Reg v) s, Val (Reg v') s' =>
      (exists ess, reported X (st_heap s) ess v /\ reported X (st_heap s') ess v') /\
      fst (st_world s') = fst (st_world s) /\ st_stack s' = st_stack s /\ st_args s' = st_args s
  | Pan e s, Pan e' s' =>
      e' = e /\ fst (st_world s') = fst (st_world s) /\ st_stack s' = st_stack s /\ st_args s' = st_args s
  | Crash c, Crash c' => c' = c
  | _, _ => False
  end.

(** What an entry of the log did to the world *)
Definition did {W} (X : ext W) (O : os W) (e : event) (w w' : W) : Prop :=
  match e with
  | EvOpen path m handle => o_open O path m w = (inr handle, w')
  | EvSpawn r child => o_spawn O r w = (inr child, w')
  | EvWait child r => o_wait O child w = (r, w')
  | EvExec r => exists code, o_exec O r w = (inr code, w')
  | EvCd dir => x_cd X dir w = (None, w')
  end.
(** Requests that are not logged: for pipes, copies of streams and texts, and those that fail *)
Inductive quiet {W} (X : ext W) (O : os W) (w : W) : W -> Prop :=
| qu_pipe : quiet X O w (snd (o_pipe O w))
| qu_dup e : quiet X O w (snd (o_dup O e w))
| qu_text t : quiet X O w (snd (o_text O t w))
| qu_open f m e w' : o_open O f m w = (inl e, w') -> quiet X O w w'
| qu_spawn r e w' : o_spawn O r w = (inl e, w') -> quiet X O w w'
| qu_exec r e w' : o_exec O r w = (inl e, w') -> quiet X O w w'
| qu_cd d e w' : x_cd X d w = (Some e, w') -> quiet X O w w'.
(** The entries of the log, in their order and with quiet requests between them, lead from one world
    to the other. *)
Inductive carried {W} (X : ext W) (O : os W) : list event -> W -> W -> Prop :=
| ca_none w : carried X O [] w w
| ca_quiet l w w1 w2 : quiet X O w w1 -> carried X O l w1 w2 -> carried X O l w w2
| ca_event e l w w1 w2 : did X O e w w1 -> carried X O l w1 w2 -> carried X O (e :: l) w w2.

(** The world at the end of a block *)
Definition block_end {W} (o : outcome (heap * W) value) : option W :=
  match o with Val _ x | Pan _ x | Exit _ x => Some (snd x) | _ => None end.
