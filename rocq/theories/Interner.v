(** Symbols: src/symbol/mod.rs and src/symbol/fmt.rs, on top of [intaglio::bytes::SymbolTable]. *)
From Coq Require Import Strings.String.
From Verif Require Import Base Text Lexer Ast Value StdLib AstFmt.

(** src/symbol/mod.rs 29: the table of the library maps names to numbers and keeps the names in the
    order of their numbers. *)
Record interner := mkinterner { in_map : list (bytes * N); in_names : list bytes }.

(** [SymbolTable::intern]: a number of 32 bits, or the error that there are none left *)
Definition intern (s : interner) (name : bytes) : option (N * interner) :=
  match assoc_bytes name (in_map s) with
  | Some id => Some (id, s)
  | None =>
    let id := N.of_nat (length (in_map s)) in
    if (id <? 4294967296)%N then Some (id, mkinterner ((name, id) :: in_map s) (in_names s ++ [name]))
    else None
  end.

(** src/symbol/mod.rs 35-41.  [None] is the failing [expect]. *)
Definition interner_new : option interner :=
  match intern (mkinterner [] []) (bs "<invalid symbol>") with
  | Some (_, s) => Some s
  | None => None
  end.

(** src/symbol/mod.rs 57-68, with the failing [expect] as [None] *)
Definition get_or_intern (s : interner) (name : bytes) : option (N * interner) := intern s name.

(** src/symbol/mod.rs 72-74 *)
Definition resolve_symbol (s : interner) (id : N) : option bytes := nth_error (in_names s) (N.to_nat id).

(** src/symbol/mod.rs 13-17 *)
Definition default_symbol : N := 0.

(** The calls of a run of the program, one after the other: word.rs 86, source.rs 63-71 by way of main.rs
    67-80, import.rs 70, semantic/mod.rs 800, semantic/scope.rs 255 *)
Fixpoint get_all (s : interner) (names : list bytes) : option (list N * interner) :=
  match names with
  | [] => Some ([], s)
  | name :: names' =>
    match get_or_intern s name with
    | None => None
    | Some (id, s1) =>
      match get_all s1 names' with
      | None => None
      | Some (ids, s2) => Some (id :: ids, s2)
      end
    end
  end.

(** main.rs 65: one interner for the whole run *)
Definition symbols_of (names : list bytes) : option (list N * interner) :=
  match interner_new with Some s => get_all s names | None => None end.

(** src/symbol/fmt.rs 14-31; the text of a number nothing is known about is the standard [Display] *)
Definition symbol_fmt {W : Type} (X : ext W) (s : interner) (id : N) : bytes :=
  if (id =? default_symbol)%N then ill_formed_text X
  else
    match resolve_symbol s id with
    | Some name => green X (x_escape X name)
    | None => green X (x_escape X (bs "<unresolved id #" ++ digits_of id ++ bs ">"))
    end.
