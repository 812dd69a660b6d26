(** C98: names of variables and layout. *)
From Coq Require Import Strings.String.
From Verif Require Import Base Lexer Ast Parser Program Sema SpecLexer SpecParser SpecAlpha AlphaProofs.

(** Giving the variables other names, different ones if they were different, and the tokens other
    places, changes nothing about the program that comes out but the places in it; and nothing
    about the errors but their places and the names of variables in them. *)
Theorem C98_names : forall r q src b les, renaming r q -> analyze src = Analysis b les [] ->
  sema (rename_block r q b) = match sema b with
                              | SemaOk p => SemaOk (move_program q p)
                              | SemaErrors es => SemaErrors (map (rename_error r q) es)
                              | SemaCrash => SemaCrash
                              end.
Proof. exact text_renamed. Qed.
Print Assumptions C98_names.

(** [x] and [y] change places, and so do [f] and [g]; everything moves down a line. *)
Definition swap (s : symbol) : symbol :=
  if bytes_eqb s (bs "x") then bs "y" else if bytes_eqb s (bs "y") then bs "x"
  else if bytes_eqb s (bs "f") then bs "g" else if bytes_eqb s (bs "g") then bs "f" else s.
Definition down (p : pos) : pos := mkpos (line p + 1) (column p).
Definition before : bytes := bs "let x = @[x: 1]
let f = function(y, g) let h = function() x = x.x + y end { cat $y; X=$x ls ~ > $g } return h end
f(x, 2)"%string.
Definition after : bytes := bs "
let y = @[x: 1]
let g = function(x, f) let h = function() y = y.x + x end { cat $x; X=$y ls ~ > $f } return h end
g(y, 2)"%string.
Example C98_case : renaming swap down /\
  exists b p, analyze before = Analysis b [] [] /\ analyze after = Analysis (rename_block swap down b) [] [] /\
    sema b = SemaOk p /\ sema (rename_block swap down b) = SemaOk (move_program down p).
Proof.
  split.
  - assert (S : forall s t, plain_name s -> swap s = t -> swap t = s /\ plain_name t).
    { unfold swap. intros s t Hs <-.
      repeat match goal with |- context [bytes_eqb s ?k] => destruct (bytes_eqb s k) eqn:?; [
        match goal with E : bytes_eqb s k = true |- _ => apply LexerProofs.bytes_eqb_eq in E; subst s end; split; [reflexivity|repeat constructor]|] end.
      repeat match goal with E : bytes_eqb s ?k = false |- _ => rewrite E; clear E end. auto. }
    constructor.
    + intros s Hs. exact (proj2 (S s _ Hs eq_refl)).
    + intros s t Hs Ht E. destruct (S s _ Hs eq_refl) as [E1 _], (S t _ Ht eq_refl) as [E2 _]. congruence.
    + reflexivity.
    + intros p Hp. unfold down. cbn [line]. apply N.le_trans with (1 := Hp), N.le_add_r.
  - eexists _, _. split; [vm_compute; reflexivity|]. split; [vm_compute; reflexivity|]. split; [vm_compute; reflexivity|vm_compute; reflexivity].
Qed.

(** An undeclared variable is reported under its other name, a repeated key under its own. *)
Example C98_error_case : exists b es,
  analyze (bs "let x = @[x: y, x: 2]"%string) = Analysis b [] [] /\ sema b = SemaErrors es /\
  sema (rename_block swap down b) = SemaErrors (map (rename_error swap down) es) /\
  map se_kind (map (rename_error swap down) es) = [UndeclaredVariable (bs "x"%string); DuplicateKey (bs "x"%string)].
Proof. eexists _, _. split; [vm_compute; reflexivity|]. split; [vm_compute; reflexivity|]. split; vm_compute; reflexivity. Qed.
