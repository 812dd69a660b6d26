(** Printing an expression with the fewest parentheses the precedence table allows, and the
    statements written in a source. *)
From Verif Require Import Base Lexer Ast Parser SpecParser.

(** The level of the outermost construct of an expression, as in SpecParser.v. *)
Definition level_of_binary (b : binary_op) : nat :=
  match b with
  | BTimes | BDiv | BMod => 3
  | BPlus | BMinus => 4
  | BConcat => 5
  | BGreater | BGreaterEquals | BLower | BLowerEquals => 6
  | BEquals | BNotEquals => 7
  | BAnd => 8
  | BOr => 9
  end.

Definition level_of (e : expr) : nat :=
  match e with
  | EBinary _ b _ _ => level_of_binary b
  | EUnary UTry _ _ => 1
  | EUnary _ _ _ => 2
  | EAccess _ _ _ | ECall _ _ _ => 1
  | _ => 0
  end.

Definition operator_of (b : binary_op) : operator :=
  match b with
  | BPlus => OPlus | BMinus => OMinus | BTimes => OTimes | BDiv => ODiv | BMod => OMod
  | BEquals => OEquals | BNotEquals => ONotEquals
  | BGreater => OGreater | BGreaterEquals => OGreaterEquals | BLower => OLower | BLowerEquals => OLowerEquals
  | BAnd => OAnd | BOr => OOr | BConcat => OConcat
  end.

Section Lists.
  Context {A : Type} (f : A -> list token).
  Fixpoint separated (l : list A) : list token :=
    match l with
    | [] => []
    | x :: l => f x ++ match l with [] => [] | _ => tok TComma ill_pos :: separated l end
    end.
End Lists.

Definition parenthesised (ts : list token) : list token :=
  tok TOpenParens ill_pos :: ts ++ [tok TCloseParens ill_pos].

(** Functions, conditionals and command blocks are printed by [leaf]. *)
Section Printer.
  Variable leaf : expr -> list token.

  Fixpoint show (l : nat) (e : expr) : list token :=
    let body :=
      match e with
      | EIdent s p => [tok (TIdentifier s) p]
      | ESelf p => [kw KSelf p]
      | ELit v p => [tok (TLiteral v) p]
      | EArray es p => tok TOpenBracket p :: separated (show 9) es ++ [tok TCloseBracket ill_pos]
      | EDict items p =>
        tok TOpenDict p ::
        separated (fun kv =>
          tok (TIdentifier (fst (fst kv))) (snd (fst kv)) :: tok TColon ill_pos :: show 9 (snd kv)) items ++
        [tok TCloseBracket ill_pos]
      | EUnary UTry e p => show 1 e ++ [tok (TOperator OTry) p]
      | EUnary UMinus e p => tok (TOperator OMinus) p :: show 2 e
      | EUnary UNot e p => tok (TOperator ONot) p :: show 2 e
      | EBinary a b c p =>
        show (level_of_binary b) a ++ tok (TOperator (operator_of b)) p :: show (pred (level_of_binary b)) c
      | EAccess o (EFieldName s q) p => show 1 o ++ [tok (TOperator ODot) p; tok (TIdentifier s) q]
      | EAccess o f p => show 1 o ++ tok TOpenBracket p :: show 9 f ++ [tok TCloseBracket ill_pos]
      | ECall f args p => show 1 f ++ tok TOpenParens p :: separated (show 9) args ++ [tok TCloseParens ill_pos]
      | _ => leaf e
      end in
    if level_of e <=? l then body else parenthesised body.

  (** No placeholder, a field name only after a dot, and leaves are printed properly. *)
  Fixpoint printable (e : expr) : Prop :=
    match e with
    | EIdent _ _ | ESelf _ | ELit _ _ => True
    | EArray es _ => all_of printable es
    | EDict items _ => all_of (fun kv => printable (snd kv)) items
    | EUnary _ e _ => printable e
    | EBinary a _ c _ => printable a /\ printable c
    | EAccess o (EFieldName _ _) _ => printable o
    | EAccess o f _ => printable o /\ printable f
    | ECall f args _ => printable f /\ all_of printable args
    | EFunction _ _ _ | EIf _ _ _ _ | ECommand _ _ => gexpr 0 (leaf e) e
    | EIllFormed | EFieldName _ _ => False
    end.
End Printer.

(** All statements written at the top level of a source. *)
Inductive written : list token -> list statement -> Prop :=
| wr_last ts ss : gstatements false ts ss -> written ts ss
| wr_more t1 ss t2 ss' :
    gstatements false t1 ss -> ends_in_return ss -> t2 <> [] -> continues t2 = false ->
    written t2 ss' -> written (t1 ++ t2) (ss ++ ss').

Definition is_return (s : statement) : bool := match s with SReturn _ _ => true | _ => false end.

(** What follows the last return that is itself followed by something. *)
Fixpoint after_return (ss : list statement) : list statement :=
  match ss with
  | [] => []
  | s :: ss' => if existsb is_return (removelast ss) then after_return ss' else ss
  end.
