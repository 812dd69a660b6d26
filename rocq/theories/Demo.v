(** A small outside world used by the examples: the world is what was written to the terminal.
    Files: "m" and "bad" can be imported.  Commands: "true" succeeds, "false" fails, "none" does
    not start, "echo" writes nothing; patterns match "a" and "b". *)
From Coq Require Import Strings.String.
From Verif Require Import Base Lexer Ast Parser Program Sema Value Text Json StdLib Exec Runtime.

(** Not in the code: part of the world of the examples *)
Definition demo_file (path : bytes) : bytes + bytes :=
  if bytes_eqb path (bs "m") then inr (bs "let x = 1 std.println(""loading"") @[v: x]")
  else if bytes_eqb path (bs "bad") then inr (bs "let a = 1 let b = 2 let c = 3 std.panic(a)")
  else inl (bs "no such file").

(** JSON without escapes and fractions. Not in the code: part of the world of the examples *)
Fixpoint demo_list (l : list bytes) : bytes :=
  match l with [] => [] | [t] => t | t :: r => t ++ bs "," ++ demo_list r end.
(** Not in the code: part of the world of the examples *)
Definition demo_digit (c : byte) : bool := ((48 <=? Byte.to_N c) && (Byte.to_N c <=? 57))%N.
(** Not in the code: part of the world of the examples *)
Fixpoint demo_json_text (j : json) : bytes :=
  match j with
  | JNull => bs "null"
  | JBool b => if b then bs "true" else bs "false"
  | JInt z => int_text z
  | JFloat _ => bs "0.0"
  | JStr s => bs """" ++ s ++ bs """"
  | JArr l => bs "[" ++ demo_list (map demo_json_text l) ++ bs "]"
  | JObj l => bs "{" ++ demo_list (map (fun e => bs """" ++ fst e ++ bs """:" ++ demo_json_text (snd e)) l) ++ bs "}"
  end.
(** Not in the code: part of the world of the examples *)
Fixpoint demo_until (stop : byte) (s : bytes) : bytes * bytes :=
  match s with
  | [] => ([], [])
  | c :: s' => if byte_eqb c stop then ([], s') else let '(a, b) := demo_until stop s' in (c :: a, b)
  end.
(** Not in the code: part of the world of the examples *)
Fixpoint demo_digits (acc : Z) (s : bytes) : Z * bytes :=
  match s with
  | c :: s' => if demo_digit c then demo_digits (acc * 10 + Z.of_N (Byte.to_N c - 48)) s' else (acc, s)
  | [] => (acc, [])
  end.
(** Not in the code: part of the world of the examples *)
Fixpoint demo_value (n : nat) (s : bytes) : option (json * bytes) :=
  match n, s with
  | O, _ | _, [] => None
  | S n', c :: r =>
      if byte_eqb c x6e then Some (JNull, skipn 3 r)
      else if byte_eqb c x74 then Some (JBool true, skipn 3 r)
      else if byte_eqb c x66 then Some (JBool false, skipn 4 r)
      else if byte_eqb c x22 then let '(t, r) := demo_until x22 r in Some (JStr t, r)
      else if byte_eqb c x5b then
        (fix items k s acc :=
           match k, s with
           | S k', c :: s' =>
               if byte_eqb c x5d then Some (JArr acc, s')
               else match demo_value n' (if byte_eqb c x2c then s' else s) with
                    | Some (j, s') => items k' s' (acc ++ [j])
                    | None => None
                    end
           | _, _ => None
           end) n' r []
      else if byte_eqb c x7b then
        (fix entries k s acc :=
           match k, s with
           | S k', c :: s' =>
               if byte_eqb c x7d then Some (JObj acc, s')
               else
                 let '(key, s') := demo_until x22 (if byte_eqb c x2c then skipn 1 s' else s') in
                 match demo_value n' (skipn 1 s') with
                 | Some (j, s') => entries k' s' (acc ++ [(key, j)])
                 | None => None
                 end
           | _, _ => None
           end) n' r []
      else if demo_digit c then let '(z, r) := demo_digits 0 s in Some (JInt z, r)
      else None
  end.
(** Not in the code: part of the world of the examples *)
Definition demo_json_parse (s : bytes) : option json :=
  match demo_value 20 s with Some (j, []) => Some j | _ => None end.

(** Not in the code: part of the world of the examples *)
Definition demo_ext_with (stack : option nat) : ext bytes :=
  mkext bytes stack
    (fun _ => None) (fun _ => bs "float") (fun s => s) (fun _ => 0%N) (fun d => d)
    (fun s => s) false
    (fun _ => bs "bad hex") (fun _ => bs "bad base64")
    (fun _ w => (None, w)) (fun _ => inr (bs "/")) (fun k _ => if bytes_eqb k (bs "HOME") then Some (bs "/home/me") else None)
    (fun _ _ w => w)
    (fun s w => (None, w ++ s)) (fun w => (inr [], w)) (fun _ w => w)
    (fun w => (S754_zero false, w)) (fun a _ w => (a, w)) (fun _ w => w)
    (fun _ _ => inl []) demo_json_text demo_json_parse (fun _ => bs "bad json")
    (fun _ => None) (fun _ _ => false) (fun _ s => [s]) (fun _ s _ => s)
    (fun t _ _ => inr t) (fun p _ => demo_file p)
    (fun _ h w => (inl (VNil, h), w)).
(** Not in the code: part of the world of the examples *)
Definition demo_ext : ext bytes := demo_ext_with (Some 300).

(** The number of a child tells how it ends: even, with success. Not in the code: part of the
    world of the examples. *)
Definition demo_os : os bytes :=
  mkos bytes
    (fun _ _ => Some [bs "a"; bs "b"])
    (fun _ _ w => (inr 7%N, w))
    (fun w => (None, w)) (fun _ w => (None, w)) (fun _ w => (None, w))
    (fun r w =>
       (if bytes_eqb (r_program r) (bs "none") then inl (bs "not found")
        else if bytes_eqb (r_program r) (bs "false") then inr 1%N else inr 0%N, w))
    (fun _ w => (inr 0%Z, w))
    (fun child w => (inr (WCode (if N.even child then 0 else 1)%Z), w))
    (fun w => (inr ([], []), w))
    (fun _ w => (0%N, w)).

(** src/main.rs 73-145 without the output: the program, if there are no errors *)
Definition compile (src : bytes) : option program :=
  match analyze src with
  | Analysis b [] [] => match sema b with SemaOk p => Some p | _ => None end
  | _ => None
  end.

(** src/main.rs 147-186 without the output: the outcome of running a text in the world of the
    examples *)
Definition demo_run (n : nat) (src : bytes) : option (outcome (state bytes) value) :=
  match compile src with
  | Some p => Some (run_program demo_ext demo_os true false n (bs "main") p [] [])
  | None => None
  end.

(** What was written, and the value or the panic. The outcome of [demo_run]. *)
Definition demo (n : nat) (src : bytes) : option (bytes * (value + panic)) :=
  match demo_run n src with
  | Some (Val v s) => Some (st_world s, inl v)
  | Some (Pan p s) => Some (st_world s, inr p)
  | _ => None
  end.
