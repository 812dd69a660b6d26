(** Specifications for command blocks, independent of the functions that build and run them. *)
From Coq Require Import Strings.String Sorting.Permutation.
From Verif Require Import Base Lexer Ast Program Value Text StdLib Exec SpecLexer SpecShow.

(** ** Arguments *)

(** How the glob library reads a pattern (restricted to one-byte character classes). *)
Inductive gtoken := GByte (c : byte) | GAny | GStar.
Inductive glob_syntax : bytes -> list gtoken -> Prop :=
| gs_end : glob_syntax [] []
| gs_star r ts : glob_syntax r ts -> glob_syntax (x2a :: r) (GStar :: ts)
| gs_any r ts : glob_syntax r ts -> glob_syntax (x3f :: r) (GAny :: ts)
| gs_class c r ts : c <> x21 -> glob_syntax r ts -> glob_syntax (x5b :: c :: x5d :: r) (GByte c :: ts)
| gs_byte c r ts : c <> x2a -> c <> x3f -> c <> x5b -> glob_syntax r ts -> glob_syntax (c :: r) (GByte c :: ts).

(** What an argument stands for: the bytes of a literal stand for themselves. *)
Inductive stands_for : eargument -> list gtoken -> Prop :=
| sf_literal s : stands_for (ELiteral s) (map GByte s)
| sf_pattern s ts : glob_syntax s ts -> stands_for (EPattern s) ts.

(** The text of a value that is not a collection. *)
Inductive scalar_text {W} (X : ext W) : value -> bytes -> Prop :=
| sc_nil : scalar_text X VNil []
| sc_true : scalar_text X (VBool true) (bs "true")
| sc_false : scalar_text X (VBool false) (bs "false")
| sc_int z : scalar_text X (VInt z) (int_text z)
| sc_float f : scalar_text X (VFloat f) (x_float_text X f)
| sc_byte b : scalar_text X (VByte b) [b]
| sc_string s : scalar_text X (VStr s) s.

(** What the tilde stands for: nothing without a home directory, and the directory with one slash
    at its end otherwise. *)
Inductive home_path : option bytes -> bytes -> Prop :=
| hp_unset : home_path None []
| hp_empty : home_path (Some []) []
| hp_slash d : home_path (Some (d ++ bs "/")) (d ++ bs "/")
| hp_plain d c : c <> x2f -> home_path (Some (d ++ [c])) (d ++ [c] ++ bs "/").

(** The alternatives a piece of an argument offers: one for everything but an array, one per
    element for an array. *)
Inductive offers {W} (X : ext W) (fetch : slot -> option value) (h : heap) (w : W)
  : xpart -> list (list gtoken) -> Prop :=
| of_literal s : offers X fetch h w (XPUnit (XULiteral s)) [map GByte s]
| of_home s : home_path (x_env X (bs "HOME") w) s -> offers X fetch h w XPHome [map GByte s]
| of_star : offers X fetch h w XPStar [[GStar]]
| of_percent : offers X fetch h w XPPercent [[GAny]]
| of_scalar ix p v s : fetch ix = Some v -> scalar_text X v s ->
    offers X fetch h w (XPUnit (XUDollar ix p)) [map GByte s]
| of_array ix p l ss : fetch ix = Some (VArr l) -> Forall2 (scalar_text X) (arr_get h l) ss ->
    offers X fetch h w (XPUnit (XUDollar ix p)) (map (map GByte) ss).

Definition wildcard (p : xpart) : bool := match p with XPStar | XPPercent => true | _ => false end.

(** Every way to take one alternative of each piece; the first piece varies fastest. *)
Fixpoint combinations (alternatives : list (list (list gtoken))) : list (list gtoken) :=
  match alternatives with
  | [] => [[]]
  | alts :: rest => flat_map (fun r => map (fun a => a ++ r) alts) (combinations rest)
  end.

(** ** Failures *)

(** The exit status the shell gives to the end of a child; [inl]: waiting failed. *)
Definition status_of (r : bytes + wstatus) : Z :=
  match r with
  | inl _ => 127
  | inr (WCode z) => z
  | inr (WSignal z) => z + 255
  | inr WOther => 255
  end.
Definition failed (r : bytes + wstatus) : bool := negb (status_of r =? 0)%Z.
Definition message (r : bytes + wstatus) : bytes :=
  match r with inl e => e | inr _ => bs "command returned non-zero" end.

(** The errors of the commands at the given positions that failed, in order. *)
Fixpoint failures (ends : list (spos * (bytes + wstatus))) : list error_status :=
  match ends with
  | [] => []
  | (p, r) :: l => (if failed r then [mkerror (message r) (status_of r) p] else []) ++ failures l
  end.

(** The children of a pipeline were waited for in the order of its commands. *)
Definition waits (children : list N) (rs : list (bytes + wstatus)) : list event :=
  map (fun cr => EvWait (fst cr) (snd cr)) (combine children rs).
Definition is_wait (e : event) : bool := match e with EvWait _ _ => true | _ => false end.

(** The children started by a list of events, with what they were asked to run. *)
Fixpoint started (l : list event) : list (request * N) :=
  match l with
  | [] => []
  | EvSpawn r c :: l => (r, c) :: started l
  | _ :: l => started l
  end.

(** What a child is asked to run, for a command written without wildcards. *)
Definition request_for (c : ebasic) (r : request) : Prop :=
  (forall s, eb_program c = ELiteral s -> r_program r = s) /\
  (forall ss, eb_arguments c = map ELiteral ss -> r_arguments r = ss) /\
  (forall kvs, eb_env c = map (fun kv => (fst kv, ELiteral (snd kv))) kvs -> r_env r = kvs) /\
  r_arg0 r = None.

(** [ran_as c l es stop]: the pipeline ran with the events [l], reported the errors [es] and
    did or did not ask to stop. *)
Inductive ran_as : ecommand -> list event -> list error_status -> bool -> Prop :=
| ra_external head tail before requests children rs :
    let cmds := head :: tail in
    Forall2 request_for cmds requests -> length children = length cmds -> length rs = length cmds ->
    existsb is_wait before = false ->
    (* every command is started, the last one first *)
    started before = rev (combine requests children) ->
    ran_as (EExternal head tail) (before ++ waits children rs)
      (failures (combine (map eb_pos cmds) rs))
      (existsb (fun cr => failed (snd cr) && eb_abort (fst cr)) (combine cmds rs))
| ra_builtin b args abort p l :
    started l = [] -> existsb is_wait l = false ->
    ran_as (EBuiltin b args abort p) l [] false
| ra_spawn0 args abort p r child e :
    ran_as (EBuiltin BSpawn0 args abort p) [EvSpawn r child; EvWait child e]
      (failures [(p, e)]) (failed e && abort).

(** [block_ran cs l ess n]: of the pipelines [cs] the first [n] ran, one after the other; all
    but the last of these did not ask to stop, and it did unless it is the last one written;
    [ess] are the errors of those that had any. *)
Inductive block_ran : list ecommand -> list event -> list (list error_status) -> nat -> Prop :=
| br_end : block_ran [] [] [] 0
| br_stop c cs l es : ran_as c l es true -> es <> [] -> block_ran (c :: cs) l [es] 1
| br_next c cs l es l' ess n :
    ran_as c l es false -> block_ran cs l' ess n ->
    block_ran (c :: cs) (l ++ l') (match es with [] => ess | _ => es :: ess end) (S n).

(** ** Redirections *)

(** The file or text an argument names; a pattern names whatever single path it matches. *)
Definition names (a : eargument) (s : bytes) : Prop := forall t, a = ELiteral t -> t = s.

(** [redirected rs l io io']: the redirections, in order, opening the files [l] in order, turn the
    streams [io] into [io']. *)
Inductive redirected : list eredirection -> list event -> stdio -> stdio -> Prop :=
| rd_end io : redirected [] [] io io
| rd_out_out rs l io io' :
    redirected rs l io io' -> redirected (EOutput 1 (TFd 1) :: rs) l io io'
| rd_err_err rs l io io' :
    redirected rs l io io' -> redirected (EOutput 2 (TFd 2) :: rs) l io io'
| rd_out_err rs l i o e io' :
    redirected rs l (mkstdio i e e) io' -> redirected (EOutput 1 (TFd 2) :: rs) l (mkstdio i o e) io'
| rd_err_out rs l i o e io' :
    redirected rs l (mkstdio i o o) io' -> redirected (EOutput 2 (TFd 1) :: rs) l (mkstdio i o e) io'
| rd_out_file rs a t m path h l i o e io' :
    (t, m) = (TOverwrite a, MOverwrite) \/ (t, m) = (TAppend a, MAppend) -> names a path ->
    redirected rs l (mkstdio i (IOFile h) e) io' ->
    redirected (EOutput 1 t :: rs) (EvOpen path m h :: l) (mkstdio i o e) io'
| rd_err_file rs a t m path h l i o e io' :
    (t, m) = (TOverwrite a, MOverwrite) \/ (t, m) = (TAppend a, MAppend) -> names a path ->
    redirected rs l (mkstdio i o (IOFile h)) io' ->
    redirected (EOutput 2 t :: rs) (EvOpen path m h :: l) (mkstdio i o e) io'
| rd_in_file rs a path h l i o e io' : names a path ->
    redirected rs l (mkstdio (IOFile h) o e) io' ->
    redirected (EInput false a :: rs) (EvOpen path MRead h :: l) (mkstdio i o e) io'
| rd_in_text rs a s l i o e io' : names a s ->
    redirected rs l (mkstdio (IOText (s ++ [x0a])) o e) io' ->
    redirected (EInput true a :: rs) l (mkstdio i o e) io'.

(** ** Pipelines *)

(** [wired out err i ios ns]: the streams [ios] of the commands of a pipeline form a chain through
    the pipes [ns] that begins with the input [i] and ends with the output [out]. *)
Inductive wired (out err : endpoint) : endpoint -> list stdio -> list nat -> Prop :=
| wi_last i : wired out err i [mkstdio i out err] []
| wi_next i n ios ns :
    wired out err (IOPipeRead n) ios ns ->
    wired out err i (mkstdio i (IOPipeWrite n) IOStderr :: ios) (n :: ns).

(** ** Values of blocks *)

(** The value that stands for one failed command. *)
Definition error_value {W} (X : ext W) (h : heap) (e : error_status) (v : value) : Prop :=
  exists l t, v = VErr (es_description e) (VDict l) /\ placed X (es_pos e) t /\
    nth_error (h_dicts h) l = Some [(VStr (bs "status"), VInt (es_status e)); (VStr (bs "pos"), VStr t)].

(** Nothing is reported as nil, one thing as itself, several as an error holding them in order. *)
Inductive several {A} (R : heap -> A -> value -> Prop) (text : bytes) (h : heap) : list A -> value -> Prop :=
| sv_none : several R text h [] VNil
| sv_one x v : R h x v -> several R text h [x] v
| sv_more l vs a :
    2 <= length l -> nth_error (h_arrs h) a = Some vs -> Forall2 (R h) l vs ->
    several R text h l (VErr text (VArr a)).
Definition reported {W} (X : ext W) : heap -> list (list error_status) -> value -> Prop :=
  several (several (error_value X) (bs "Some commands failed in the pipeline")) (bs "Some commands failed in the block").

(** A command of the pipeline that is not marked with [?] was waited for and had failed. *)
Definition stopping (c : ecommand) (l : list event) : Prop :=
  match c with
  | EExternal head tail => exists b child r, In b (head :: tail) /\ eb_abort b = true /\ In (EvWait child r) l /\ failed r = true
  | EBuiltin _ _ abort _ => abort = true /\ exists child r, In (EvWait child r) l /\ failed r = true
  end.

(** ** Commands as text *)

(** The ways to write a word with the bytes [s] and nothing to expand: between single quotes,
    between double quotes, without quotes. *)
Inductive word_text : bytes -> bytes -> Prop :=
| wt_single t s : spelling single_plain single_quoted_escapes t s -> word_text (x27 :: t ++ [x27]) s
| wt_double t s : spelling double_plain double_quoted_escapes t s -> word_text (QUOTE :: t ++ [QUOTE]) s
| wt_bare t s :
    spelling run_byte unquoted_escapes t s -> ~ starts_with (fun c => Byte.eqb c x7e || Byte.eqb c x7c) t ->
    word_text t s.

Definition blanks (b : bytes) : Prop := Forall (fun c => is_ascii_whitespace c = true) b.

(** Words, none of them empty, then the closing brace. *)
Inductive words_text : bytes -> list bytes -> Prop :=
| ws_end b : blanks b -> words_text (b ++ [x7d]) []
| ws_word b t s r ss :
    blanks b -> word_text t s -> s <> [] -> starts_with ends_argument r -> words_text r ss ->
    words_text (b ++ t ++ r) (s :: ss).

Definition builtin_names : list bytes :=
  [bs "alias"; bs "cd"; bs "exec"; bs "exec0"; bs "spawn0"].
