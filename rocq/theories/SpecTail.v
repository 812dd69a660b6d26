(** Specifications for calls in tail position. *)
From Verif Require Import Base Lexer Ast Program Value StdLib Exec Runtime SpecProgram SpecRun SpecRuntime.

(** The same outcome; how much stack was in use does not matter when the process exits. *)
Definition ends_alike {W A} (o o' : outcome (state W) A) : Prop :=
  match o, o' with
  | Val a s, Val b s' => a = b /\ s = s'
  | Pan p s, Pan q s' => p = q /\ s = s'
  | Exit z s, Exit z' s' => z = z' /\ exists l, s' = set_stack s l
  | _, _ => False
  end.
(** The run came to an end, and no failed import left its variables on the stack. *)
Definition clean_end {W A} (o : outcome (state W) A) : Prop :=
  match o with
  | Val _ s | Pan _ s | Exit _ s => st_leaked s = false
  | Crash _ | Fuel => False
  end.

(** A call that is about to be made: the object, the function, where its arguments begin, and
    the position of the call. *)
Record pending := mkpending { pd_object : value; pd_function : func; pd_start : nat; pd_pos : spos }.
Definition makes {W} (X : ext W) (O : os W) (n : nat) (c : pending) (s : state W) : outcome (state W) value :=
  ev_call (interp X O n) (pd_object c) (pd_function c) (pd_start c) (pd_pos c) s.
#[local] Existing Instance anything.
Definition sound_pending (c : pending) : Prop := sound (pd_object c) /\ sound_func (pd_function c).

(** How many variables the function that is called has on the stack *)
Definition needs (c : pending) : nat :=
  match pd_function c with FHush _ _ fi _ _ _ => fi_slots fi | FRust _ => 0 end.

(** Statements that end in a call *)
Inductive ends_in_call : xstatement -> xexpr -> list xexpr -> pos -> Prop :=
| ec_return f args p : ends_in_call (XReturn (XCall f args p)) f args p
| ec_value f args p : ends_in_call (XExpr (XCall f args p)) f args p.

(** Statements that complete, one after the other *)
Inductive completes {W} (X : ext W) (O : os W) (n : nat) (u : uinfo) : list xstatement -> state W -> state W -> Prop :=
| cm_nil s : completes X O n u [] s s
| cm_cons st b s v s1 s2 : ev_statement (interp X O n) u st s = Val (Reg v) s1 ->
    completes X O n u b s1 s2 -> completes X O n u (st :: b) s s2.

(** Arguments that are evaluated and put behind the others *)
Inductive pushes {W} (X : ext W) (O : os W) (n : nat) (u : uinfo) : list xexpr -> state W -> state W -> Prop :=
| ps_nil s : pushes X O n u [] s s
| ps_cons e es s v s1 s2 : gives X O n u e s v s1 ->
    pushes X O n u es (set_args s1 (st_args s1 ++ [v])) s2 -> pushes X O n u (e :: es) s s2.

(** The body of a Hush function begins in [s1]. *)
Definition begins {W} (X : ext W) (c : pending) (s s1 : state W) : Prop :=
  match pd_function c with
  | FHush _ params fi _ ctx _ =>
      length (skipn (pd_start c) (st_args s)) = params /\
      bind (Runtime.extend X false (fi_slots fi) (pd_pos c)) (fun _ =>
      bind (store_all 0 (skipn (pd_start c) (st_args s))) (fun _ =>
      bind (place_all ctx) (fun _ =>
      match fi_self fi with Some ix => store ix (pd_object c) | None => ret tt end)))
      (set_args s (firstn (pd_start c) (st_args s))) = Val tt s1
  | FRust _ => False
  end.

(** A call [c] of a Hush function comes to its last statement, which makes the call [c']: the
    statements before complete, the function and the arguments are evaluated, the variables of [c]
    are dropped. *)
Inductive hands_over {W} (X : ext W) (O : os W) (n : nat) : pending * state W -> pending * state W -> Prop :=
| ho obj unit params fi body last ctx fp start p s s1 s2 f args q g fq obj' s3 s4 :
    let c := mkpending obj (FHush unit params fi (body ++ [last]) ctx fp) start p in
    let u := mkuinfo unit (sp_path fp) in
    begins X c s s1 -> completes X O n u body s1 s2 -> ends_in_call last f args q ->
    ev_expr (interp X O n) u f s2 = Val (Reg (VFun g), fq, obj') s3 -> pushes X O n u args s3 s4 ->
    hands_over X O n (c, s)
      (mkpending obj' g (length (st_args s3)) (at_ u q), set_stack s4 (skipn (fi_slots fi) (st_stack s4))).

(** A chain of [k] tail calls *)
Inductive chain {W} (X : ext W) (O : os W) (n : nat) : nat -> pending * state W -> pending * state W -> Prop :=
| ch_nil x : chain X O n 0 x x
| ch_cons k x y z : hands_over X O n x y -> chain X O n k y z -> chain X O n (S k) x z.
