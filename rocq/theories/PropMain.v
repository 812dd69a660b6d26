(** Properties of the program around the interpreter: C49, C53. *)
From Coq Require Import Strings.String.
From Verif Require Import Base Lexer Ast Parser Program Sema Value Text StdLib Exec Runtime Demo Main SpecMain MainProofs.

Section Examples.
Definition demo_source (text : string) (script : option bytes) (w : bytes) : (bytes + bytes) * bytes :=
  match script with None => (inr (bs text), w) | Some _ => (inl (bs "unreadable"), w) end.
Definition demo_hush (check : bool) (text : string) : ending * list shown * bytes :=
  hush demo_ext demo_os (demo_source text) 60 (fun _ => false) (ClapMatches (mkmatches check false false false [bs "x"%string])) [].
End Examples.

(** C49.  A text with a static error: status 2, and the world is as it was when the text had been
    read.  (With the option --lex the text is read by the lexer a second time, to its end; this may
    crash as in C04.) *)
Theorem C49_static_error : forall {W} (X : ext W) (O : os W) read_source n is_file m o w text w',
  parse_args is_file (ClapMatches m) = Some (CmdRun o) ->
  read_source (o_script o) w = (inr text, w') -> has_static_error text ->
  (o_lex o = true -> forall os, Lexer.lex text <> LexCrash os) ->
  exists e out, hush X O read_source n is_file (ClapMatches m) w = (e, out, w') /\ process_status e = Some 2%Z.
Proof. exact @static_error_not_run. Qed.
Print Assumptions C49_static_error.

(** The first statement of each text would print. *)
Example C49_static_error_case :
  (exists e, demo_hush false "std.println(1) let = 2" = (Status StaticError, [ShSyntaxErrors [e]], [])) /\
  (exists e, demo_hush true "std.println(1) x = 1" = (Status StaticError, [ShSemanticErrors [e]], [])) /\
  process_status (Status StaticError) = Some 2%Z.
Proof. split; [eexists; vm_compute; reflexivity|]. split; [eexists; vm_compute; reflexivity|]. reflexivity. Qed.

(** With --check nothing is run, and the status is 0 for a program without static error. *)
Theorem C49_check : forall {W} (X : ext W) (O : os W) read_source n is_file m o w text w',
  parse_args is_file (ClapMatches m) = Some (CmdRun o) -> o_check o = true ->
  read_source (o_script o) w = (inr text, w') ->
  (forall p, accepted text p ->
     exists e out, hush X O read_source n is_file (ClapMatches m) w = (e, out, w') /\ process_status e = Some 0%Z) /\
  (forall e out w2, hush X O read_source n is_file (ClapMatches m) w = (e, out, w2) -> w2 = w').
Proof. exact @check_not_run. Qed.
Print Assumptions C49_check.

Example C49_check_case : demo_hush true "std.println(1)" = (Status Success, [], []).
Proof. vm_compute. reflexivity. Qed.

(** Otherwise the status tells how the evaluation ended. *)
Theorem C49_status : forall {W} (X : ext W) (O : os W) read_source n is_file m o w text w' p,
  parse_args is_file (ClapMatches m) = Some (CmdRun o) -> o_check o = false ->
  read_source (o_script o) w = (inr text, w') -> accepted text p ->
  let path := match o_script o with Some p => p | None => bs "<stdin>"%string end in
  let r := hush X O read_source n is_file (ClapMatches m) w in
  match run_program X O true false n path p (o_args o) w' with
  | Val _ s => process_status (fst (fst r)) = Some 0%Z /\ snd r = st_world s
  | Pan e s => process_status (fst (fst r)) = Some 127%Z /\ snd r = st_world s /\ In (ShPanic e) (snd (fst r))
  | Exit c s => process_status (fst (fst r)) = Some (c mod 256)%Z /\ snd r = st_world s
  | Crash _ => process_status (fst (fst r)) = Some 101%Z
  | Fuel => process_status (fst (fst r)) = None
  end.
Proof. exact @run_status. Qed.
Print Assumptions C49_status.

Example C49_status_case :
  demo_hush false "std.println(std.args()[0])" = (Status Success, [], bs "x"%string ++ [x0a]) /\
  (exists p, demo_hush false "std.println(1) std.panic(2)" = (Status PanicStatus, [ShPanic (PUser (VInt 2) p)], bs "1"%string ++ [x0a])) /\
  process_status (fst (fst (demo_hush false "std.exit(3)"))) = Some 3%Z.
Proof.
  split; [vm_compute; reflexivity|]. split; [|vm_compute; reflexivity].
  eexists. vm_compute. reflexivity.
Qed.

(** Help and version are shown with status 0; wrong options give status 1, and a script that cannot
    be read 127.  Nothing is run. *)
Theorem C49_nothing_to_run : forall {W} (X : ext W) (O : os W) read_source n is_file w,
  (forall c what code, In (c, what, code) [(ClapHelp, ShHelp, 0%Z); (ClapVersion, ShVersion, 0%Z); (ClapError, ShArgError, 1%Z)] ->
     exists e, hush X O read_source n is_file c w = (e, [what], w) /\ process_status e = Some code) /\
  (forall m o err w', parse_args is_file (ClapMatches m) = Some (CmdRun o) -> read_source (o_script o) w = (inl err, w') ->
     exists e, hush X O read_source n is_file (ClapMatches m) w = (e, [ShUnreadable err], w') /\ process_status e = Some 127%Z).
Proof. exact @nothing_to_run. Qed.
Print Assumptions C49_nothing_to_run.

Example C49_nothing_to_run_case :
  hush demo_ext demo_os (demo_source "std.println(1)") 60 (fun _ => true)
    (ClapMatches (mkmatches false false false false [bs "x"%string])) [] =
  (Status PanicStatus, [ShUnreadable (bs "unreadable"%string)], []).
Proof. vm_compute. reflexivity. Qed.

(** C53.  The arguments of the script are those after its name, unchanged and in order, and a
    leading argument that is no file counts as an argument. *)
Theorem C53_arguments : forall is_file m script args,
  script_args is_file (m_arguments m) script args ->
  parse_args is_file (ClapMatches m) = Some (CmdRun (mkoptions script (m_check m) (m_lex m) (m_ast m) (m_program m) args)).
Proof. exact parsed_args. Qed.
Print Assumptions C53_arguments.
Theorem C53_std_args : forall {W} (X : ext W) (O : os W) n obj p args (w : W),
  exists l s, ev_call (run X O true false (S n)) obj (FRust (NStd SArgs)) 0 p (initial args w) = Val (VArr l) s /\
    arr_get (st_heap s) l = map VStr args.
Proof. exact @std_args_initial. Qed.
Print Assumptions C53_std_args.

Example C53_case :
  script_args (fun f => bytes_eqb f (bs "a.hsh"%string)) [bs "a.hsh"%string; bs "--check"%string; bs "-"%string]
    (Some (bs "a.hsh"%string)) [bs "--check"%string; bs "-"%string] /\
  script_args (fun f => bytes_eqb f (bs "a.hsh"%string)) [bs "b.hsh"%string; bs "c"%string] None [bs "b.hsh"%string; bs "c"%string].
Proof. split; constructor; try reflexivity; discriminate. Qed.
