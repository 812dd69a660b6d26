(** Specifications for the program around the interpreter. *)
From Coq Require Import Strings.String.
From Verif Require Import Base Lexer Ast Parser Program Sema.

(** The text is a program without static errors. *)
Definition accepted (text : bytes) (p : program) : Prop :=
  exists b, analyze text = Analysis b [] [] /\ sema b = SemaOk p.
Definition has_static_error (text : bytes) : Prop :=
  exists b les pes, analyze text = Analysis b les pes /\
    (les <> [] \/ pes <> [] \/ exists es, sema b = SemaErrors es).

(** The arguments of the script: all but a script name, or a dash, in front. *)
Inductive script_args (is_file : bytes -> bool) : list bytes -> option bytes -> list bytes -> Prop :=
| sa_none : script_args is_file [] None []
| sa_dash r : script_args is_file (bs "-" :: r) None r
| sa_file f r : f <> bs "-" -> is_file f = true -> script_args is_file (f :: r) (Some f) r
| sa_other a r : a <> bs "-" -> is_file a = false -> script_args is_file (a :: r) None (a :: r).
