(** What becomes of a source with mistakes in some of its statements. *)
From Verif Require Import Base Lexer Ast Parser SpecLexer SpecParser SpecReport.

(** A token no expression begins with *)
Definition no_expression (k : token_kind) : bool :=
  match k with
  | TIdentifier _ | TLiteral _ | TOpenParens | TOpenBracket | TOpenDict | TCommand | TAsyncCommand | TCaptureCommand
  | TKeyword (KSelf | KIf | KFunction) | TOperator (OMinus | ONot) => false
  | _ => true
  end.
(** A token that begins another statement than an expression, or ends a block *)
Definition of_statement (t : token) : bool :=
  match tk_kind t with
  | TKeyword (KLet | KReturn | KBreak | KWhile | KFor | KEnd | KElse | KElseIf) => true
  | _ => false
  end.
Definition ends_block (t : token) : bool :=
  match tk_kind t with TKeyword (KEnd | KElse | KElseIf) => true | _ => false end.

(** A token that does not make an expression longer; an equals sign is not part of one. *)
Definition no_longer (t : token) : Prop := continues [t] = false \/ tk_kind t = TOperator OAssign.
Definition lacks (k : token_kind) (ts : list token) : Prop := Forall (fun t => tk_kind t <> k) ts.

(** One or more, separated by commas, none at the end *)
Inductive several : list token -> Prop :=
| sv_one ts e : gexpr 9 ts e -> several ts
| sv_more t1 e p t2 : gexpr 9 t1 e -> several t2 -> several (t1 ++ tok TComma p :: t2).
Inductive several_items : list token -> Prop :=
| si_one s p q ts e : gexpr 9 ts e -> several_items (tok (TIdentifier s) p :: tok TColon q :: ts)
| si_more s p q t1 e r t2 : gexpr 9 t1 e -> several_items t2 ->
    several_items (tok (TIdentifier s) p :: tok TColon q :: t1 ++ tok TComma r :: t2).

(** [broken l ts t]: the tokens are an expression with one mistake, which shows at the token [t]: there
    is no operand, or something else where a closing token belongs, which comes later. *)
Inductive broken : nat -> list token -> token -> Prop :=
| b_none t : no_expression (tk_kind t) = true -> broken 0 [t] t
| b_parens p t1 e t g q :
    gexpr 9 t1 e -> no_longer t -> lacks TCloseParens (t :: g) ->
    broken 0 (tok TOpenParens p :: t1 ++ t :: g ++ [tok TCloseParens q]) t
| b_array p t1 t g q :
    several t1 -> no_longer t -> tk_kind t <> TComma -> lacks TCloseBracket (t :: g) ->
    broken 0 (tok TOpenBracket p :: t1 ++ t :: g ++ [tok TCloseBracket q]) t
| b_dict p t1 t g q :
    several_items t1 -> no_longer t -> tk_kind t <> TComma -> lacks TCloseBracket (t :: g) ->
    broken 0 (tok TOpenDict p :: t1 ++ t :: g ++ [tok TCloseBracket q]) t
| b_function p o t1 ps q t2 ss t g r :
    gparams t1 ps -> gstatements false t2 ss -> ends_in_return ss -> continues [t] = false -> lacks (TKeyword KEnd) (t :: g) ->
    broken 0 (kw KFunction p :: tok TOpenParens o :: t1 ++ tok TCloseParens q :: t2 ++ t :: g ++ [kw KEnd r]) t
| b_call t1 e p t2 t g q :
    gexpr 1 t1 e -> several t2 -> no_longer t -> tk_kind t <> TComma -> lacks TCloseParens (t :: g) ->
    broken 1 (t1 ++ tok TOpenParens p :: t2 ++ t :: g ++ [tok TCloseParens q]) t
| b_index t1 e p t2 f t g q :
    gexpr 1 t1 e -> gexpr 9 t2 f -> no_longer t -> lacks TCloseBracket (t :: g) ->
    broken 1 (t1 ++ tok TOpenBracket p :: t2 ++ t :: g ++ [tok TCloseBracket q]) t
| b_up l ts t : l < 9 -> broken l ts t -> broken (S l) ts t
| b_prefix o u p ts t : prefix o = Some u -> broken 2 ts t -> broken 2 (tok (TOperator o) p :: ts) t
| b_binary l o b p t1 e1 t2 t :
    binop o = Some (S l, b) -> gexpr (S l) t1 e1 -> broken l t2 t ->
    broken (S l) (t1 ++ tok (TOperator o) p :: t2) t.

(** The same for statements *)
Inductive faulty : list token -> token -> Prop :=
| f_expr t0 ts t : of_statement t0 = false -> broken 9 (t0 :: ts) t -> faulty (t0 :: ts) t
| f_assign t1 e p t2 t : gexpr 9 t1 e -> broken 9 t2 t -> faulty (t1 ++ tok (TOperator OAssign) p :: t2) t
| f_let p s q r ts t : broken 9 ts t -> faulty (kw KLet p :: tok (TIdentifier s) q :: tok (TOperator OAssign) r :: ts) t
| f_return p t0 ts t : ends_block t0 = false -> broken 9 (t0 :: ts) t -> faulty (kw KReturn p :: t0 :: ts) t
| f_function p s q o t1 ps c t2 ss t g r :
    gparams t1 ps -> gstatements false t2 ss -> ends_in_return ss -> continues [t] = false -> lacks (TKeyword KEnd) (t :: g) ->
    faulty (kw KFunction p :: tok (TIdentifier s) q :: tok TOpenParens o :: t1 ++ tok TCloseParens c :: t2 ++ t :: g ++ [kw KEnd r]) t
| f_while p t1 c q t2 ss t g r :
    gexpr 9 t1 c -> gstatements false t2 ss -> ends_in_return ss -> continues [t] = false -> lacks (TKeyword KEnd) (t :: g) ->
    faulty (kw KWhile p :: t1 ++ kw KDo q :: t2 ++ t :: g ++ [kw KEnd r]) t
| f_for p s q i t1 e d t2 ss t g r :
    gexpr 9 t1 e -> gstatements false t2 ss -> ends_in_return ss -> continues [t] = false -> lacks (TKeyword KEnd) (t :: g) ->
    faulty (kw KFor p :: tok (TIdentifier s) q :: kw KIn i :: t1 ++ kw KDo d :: t2 ++ t :: g ++ [kw KEnd r]) t.

(** A command block without commands, or with something after the question mark of its last one *)
Inductive bad_block : list token -> pos -> token -> Prop :=
| bb_empty k kind p q : opens k = Some kind -> bad_block [tok k p; tok TCloseCommand q] p (tok TCloseCommand q)
| bb_try k kind p ps r u t g q :
    opens k = Some kind -> is_assignment ps = false ->
    tk_kind t <> TPipe -> tk_kind t <> TSemicolon -> lacks TCloseCommand (t :: g) ->
    bad_block (tok k p :: tok (TArgument ps) r :: tok (TCmdOperator CTry) u :: t :: g ++ [tok TCloseCommand q]) p t.

(** A source with mistakes in some of its statements, in nested blocks as well, the statements of its tree,
    and the misplaced tokens.  The flag tells that [end], [else] or [elseif] comes next. *)
Inductive mended : bool -> list token -> list statement -> list token -> Prop :=
| me_end nested ts ss : gstatements nested ts ss -> mended nested ts ss []
| me_statement nested t1 s ends t2 ss fs :
    gstatement t1 s ends -> (ends = true -> continues t2 = false) -> (forall p r, t2 <> tok (TOperator OAssign) p :: r) ->
    mended nested t2 ss fs -> mended nested (t1 ++ t2) (s :: ss) fs
| me_faulty nested t1 t t2 ss fs :
    faulty t1 t -> mended nested t2 ss fs -> mended nested (t1 ++ t2) (SIllFormed :: ss) (t :: fs)
| me_block nested t1 p t t2 ss fs :
    bad_block t1 p t -> continues t2 = false -> mended nested t2 ss fs ->
    mended nested (t1 ++ t2) (SExpr (ECommand ill_command_block p) :: ss) (t :: fs)
| me_while nested p t1 c q t2 body bs r t3 ss fs :
    gexpr 9 t1 c -> mended true t2 body bs -> mended nested t3 ss fs ->
    mended nested (kw KWhile p :: t1 ++ kw KDo q :: t2 ++ kw KEnd r :: t3) (SWhile c (BBlock body) p :: ss) (bs ++ fs)
| me_for nested p s q i t1 e d t2 body bs r t3 ss fs :
    gexpr 9 t1 e -> mended true t2 body bs -> mended nested t3 ss fs ->
    mended nested (kw KFor p :: tok (TIdentifier s) q :: kw KIn i :: t1 ++ kw KDo d :: t2 ++ kw KEnd r :: t3)
      (SFor s e (BBlock body) q :: ss) (bs ++ fs)
| me_function nested p s q o t1 ps c t2 body bs r t3 ss fs :
    gparams t1 ps -> mended true t2 body bs -> mended nested t3 ss fs ->
    mended nested (kw KFunction p :: tok (TIdentifier s) q :: tok TOpenParens o :: t1 ++ tok TCloseParens c :: t2 ++ kw KEnd r :: t3)
      (SLet s (EFunction ps (BBlock body) p) q :: ss) (bs ++ fs)
| me_if nested p t1 c a e bs r t2 ss fs :
    mended_cond t1 c a e bs -> continues t2 = false -> mended nested t2 ss fs ->
    mended nested (kw KIf p :: t1 ++ kw KEnd r :: t2) (SExpr (EIf c a e p) :: ss) (bs ++ fs)
with mended_cond : list token -> expr -> block -> block -> list token -> Prop :=
| mc_cond t1 c p t2 ss fs t3 e es :
    gexpr 9 t1 c -> mended true t2 ss fs -> mended_else t3 e es ->
    mended_cond (t1 ++ kw KThen p :: t2 ++ t3) c (BBlock ss) e (fs ++ es)
with mended_else : list token -> block -> list token -> Prop :=
| ml_none : mended_else [] (BBlock []) []
| ml_else p ts ss fs : mended true ts ss fs -> mended_else (kw KElse p :: ts) (BBlock ss) fs
| ml_elseif p ts c a e fs : mended_cond ts c a e fs -> mended_else (kw KElseIf p :: ts) (BBlock [SExpr (EIf c a e p)]) fs.
