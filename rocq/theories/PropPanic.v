(** Properties of the places that panics name: C105. *)
From Coq Require Import Strings.String.
From Verif Require Import Base Lexer Ast Parser Program Sema Value Text StdLib Exec Runtime SpecRun SpecLexer SpecFirst SpecShow
  SpecPanic PanicRunProofs PanicTextProofs PanicTellProofs Demo PropRun.

(** C105.  Whatever a program does, when it ends with a panic, the panic names a place in the
    script or in a file that was imported, neither of which has errors: where a token begins, or
    a variable inside of an argument.  The one exception is a file whose own variables do not
    fit: then the file is named. *)
Theorem C105_place : forall {W} (X : ext W) (O : os W) path src n b prog args w e s,
  honest X -> joins_place X path src -> analyze src = Analysis b [] [] -> sema b = SemaOk prog ->
  run_program X O true false n path prog args w = Pan e s -> names_place X path src e.
Proof. exact @panic_named. Qed.
Print Assumptions C105_place.

Example C105_joins : forall src, joins_place demo_ext (bs "main"%string) src.
Proof. intros src i h w e w' H. discriminate H. Qed.
Example C105_place_case :
  (exists out, demo 60 (bs "let f = function (x) return 7 / x end
f(1) f(0)"%string) = Some (out, inr (PDivisionByZero (mkspos (bs "main"%string) (mkpos 1 30))))) /\
  (exists out, demo 60 (bs "let x = @[] { echo a""b$x"" }"%string) =
     Some (out, inr (PTypeError (VDict 4) (bs "nil, bool, int, float, byte or string"%string) (mkspos (bs "main"%string) (mkpos 1 22))))) /\
  (exists out, demo 60 (bs "std.import(""bad"")"%string) =
     Some (out, inr (PUser (VInt 1) (mkspos (bs "bad"%string) (mkpos 1 39))))) /\
  honest demo_ext.
Proof. split; [|split; [|split; [|exact demo_honest]]]; eexists; vm_compute; reflexivity. Qed.

(** C105.  The places of a text are inside of it ... *)
Theorem C105_inside : forall src p, In p (text_places src) ->
  exists before c after, src = before ++ c :: after /\ p = position_of before.
Proof. exact places_inside. Qed.
Print Assumptions C105_inside.

(** C105.  ... and the place of a variable inside of an argument is that of its dollar. *)
Theorem C105_variable : forall src t ps p,
  In t (source_tokens src) -> tk_kind t = TArgument ps -> In p (flat_map part_places ps) ->
  exists before after, src = before ++ "$"%byte :: after /\ p = position_of before.
Proof. exact variables_place. Qed.
Print Assumptions C105_variable.

Example C105_variable_case : text_places (bs "let x = 1
{ echo $x ""a ${x}"" b$x }"%string) =
  map (fun lc => mkpos (fst lc) (snd lc))
    [(1, 0); (1, 4); (1, 6); (1, 8); (2, 0); (2, 2); (2, 7); (2, 7); (2, 10); (2, 13); (2, 19); (2, 20); (2, 23)]%N.
Proof. vm_compute. reflexivity. Qed.

(** C105.  The message of a panic tells the line and the column of a byte of that text. *)
Theorem C105_message : forall {W} (X : ext W) (O : os W) path src b prog n args w e s m h t,
  honest X -> joins_place X path src -> analyze src = Analysis b [] [] -> sema b = SemaOk prog ->
  run_program X O true false n path prog args w = Pan e s -> panic_text X m h e = Known t ->
  exists f text place said, text_of X path src f text /\
    ((exists before c after, text = before ++ c :: after /\ SpecShow.placed X (mkspos f (position_of before)) place) \/
     (e = PStackOverflow (mkspos f (mkpos 0 0)) /\ SpecShow.placed X (mkspos f (mkpos 0 0)) place)) /\
    exists head, tinted X (bs "1"%string) (bs "Panic"%string) head /\
      t = head ++ bs " in "%string ++ place ++ bs ": "%string ++ said.
Proof. exact @message_place. Qed.
Print Assumptions C105_message.

Example C105_message_case :
  match demo_run 60 (bs "let a = 1
a()"%string) with
  | Some (Pan e s) => panic_text demo_ext 5 (st_heap s) e =
      Known (bs "Panic in main (line 2, column 0): attempt to call (1), which is not a function"%string)
  | _ => False
  end.
Proof. vm_compute. reflexivity. Qed.

(** C105.  A file without room for its own variables is named as a whole. *)
Example C105_room_case :
  match compile (bs "let a = 1"%string) with
  | Some prog =>
      match run_program (demo_ext_with (Some 1)) demo_os true false 60 (bs "main"%string) prog [] [] with
      | Pan e _ => e = PStackOverflow (mkspos (bs "main"%string) (mkpos 0 0))
      | _ => False
      end
  | None => False
  end.
Proof. vm_compute. reflexivity. Qed.
