(** The grammar of Hush over tokens, written as inductive relations between token lists and
    syntax trees.  It does not mention the parser. *)
From Coq Require Import Strings.String.
From Verif Require Import Base Lexer Ast SpecLexer.

Notation tok k p := (mktoken k p).
Notation kw k p := (mktoken (TKeyword k) p).

(** ** Binary operators: the level at which each one binds (smaller binds tighter) *)
Definition binop (o : operator) : option (nat * binary_op) :=
  match o with
  | OTimes => Some (3, BTimes) | ODiv => Some (3, BDiv) | OMod => Some (3, BMod)
  | OPlus => Some (4, BPlus) | OMinus => Some (4, BMinus)
  | OConcat => Some (5, BConcat)
  | OGreater => Some (6, BGreater) | OGreaterEquals => Some (6, BGreaterEquals)
  | OLower => Some (6, BLower) | OLowerEquals => Some (6, BLowerEquals)
  | OEquals => Some (7, BEquals) | ONotEquals => Some (7, BNotEquals)
  | OAnd => Some (8, BAnd)
  | OOr => Some (9, BOr)
  | _ => None
  end.

Definition prefix (o : operator) : option unary_op :=
  match o with OMinus => Some UMinus | ONot => Some UNot | _ => None end.

(** A token that, coming after an expression, makes it longer. *)
Definition continues (ts : list token) : bool :=
  match ts with
  | mktoken k _ :: _ =>
    match k with
    | TOpenParens | TOpenBracket => true
    | TOperator ONot => false
    | TOperator _ => true
    | _ => false
    end
  | [] => false
  end.

(** ** Command blocks *)

(** The pieces of an argument, in order: quotes have no meaning of their own. *)
Definition pieces (p : arg_part) : list ast_part :=
  match p with
  | PUnquoted u => [APUnit u]
  | PSingleQuoted s => [APUnit (AULiteral s)]
  | PDoubleQuoted us => map APUnit us
  | PExpansion e => [APExpansion e]
  | PEnvAssign => [APUnit (AULiteral (bs "="))]
  end.

(** Literals in a row are one literal; a literal of no bytes is nothing. *)
Fixpoint joined (ps : list ast_part) : list ast_part :=
  match ps with
  | [] => []
  | APUnit (AULiteral a) :: ps' =>
    match joined ps' with
    | APUnit (AULiteral b) :: r => APUnit (AULiteral (a ++ b)) :: r
    | r => match a with [] => r | _ => APUnit (AULiteral a) :: r end
    end
  | p :: ps' => p :: joined ps'
  end.

Definition argument_of (ps : list arg_part) (p : pos) : ast_argument :=
  mkarg (joined (flat_map pieces ps)) p.

(** An argument of the form [name=...]. *)
Definition is_assignment (ps : list arg_part) : bool :=
  match ps with PUnquoted _ :: PEnvAssign :: _ => true | _ => false end.

Definition is_number_text (s : bytes) : Prop := Forall (fun c => digit c = true) s.

(** A file descriptor as text. *)
Definition fd_text (s : bytes) (n : Z) : Prop :=
  exists ds, (s = ds \/ s = x2b :: ds) /\ ds <> [] /\ is_number_text ds /\ n = decimal_value ds /\ (n <= 255)%Z.

Definition redirects (ts : list token) : Prop :=
  match ts with mktoken (TCmdOperator (COutput _ | CInput _)) _ :: _ => True | _ => False end.

(** The source of an output redirection: standard output unless given. *)
Inductive gsource : bool -> list token -> Z -> Prop :=
| gsrc_none a : gsource a [] 1%Z
| gsrc_fd (after_arguments : bool) s n p :
    (after_arguments = true -> is_number_text s) -> fd_text s n ->
    gsource after_arguments [tok (TArgument [PUnquoted (AULiteral s)]) p] n.

(** One redirection; [after_arguments] holds for the first one. *)
Inductive gredirection : bool -> list token -> redirection -> Prop :=
| gr_input a literal p ps q :
    gredirection a [tok (TCmdOperator (CInput literal)) p; tok (TArgument ps) q]
      (RInputFrom literal (argument_of ps q))
| gr_append a src ts p ps q :
    gsource a ts src ->
    gredirection a (ts ++ [tok (TCmdOperator (COutput true)) p; tok (TArgument ps) q])
      (ROutputTo src (RAppend (argument_of ps q)))
| gr_fd a src ts p s n q :
    gsource a ts src -> fd_text s n ->
    gredirection a (ts ++ [tok (TCmdOperator (COutput false)) p; tok (TArgument [PUnquoted (AULiteral s)]) q])
      (ROutputTo src (RFd n))
| gr_overwrite a src ts p ps q :
    gsource a ts src -> (forall s n, ps = [PUnquoted (AULiteral s)] -> ~ fd_text s n) ->
    gredirection a (ts ++ [tok (TCmdOperator (COutput false)) p; tok (TArgument ps) q])
      (ROutputTo src (ROverwrite (argument_of ps q))).

(** Redirections, then an optional [?], which means not to abort. *)
Inductive goperators : bool -> list token -> list redirection -> bool -> Prop :=
| go_end a : goperators a [] [] true
| go_try a p : goperators a [tok (TCmdOperator CTry) p] [] false
| go_redirection a t1 r t2 rs abort :
    gredirection a t1 r -> goperators false t2 rs abort -> goperators a (t1 ++ t2) (r :: rs) abort.

Inductive garguments : list token -> list token -> list ast_argument -> Prop :=
| ga_nil rest : garguments rest [] []
| ga_cons rest ps p ts args :
    ((exists s, ps = [PUnquoted (AULiteral s)] /\ is_number_text s) -> ~ redirects (ts ++ rest)) ->
    garguments rest ts args ->
    garguments rest (tok (TArgument ps) p :: ts) (argument_of ps p :: args).

Inductive genvironment : list token -> list (arg_unit * ast_argument) -> Prop :=
| ge_nil : genvironment [] []
| ge_cons key ps p ts env :
    genvironment ts env ->
    genvironment (tok (TArgument (PUnquoted key :: PEnvAssign :: ps)) p :: ts) ((key, argument_of ps p) :: env).

Inductive gbasic : list token -> basic_command -> Prop :=
| gb t1 env ps p t2 args t3 rs abort :
    genvironment t1 env -> is_assignment ps = false ->
    garguments t3 t2 args -> goperators true t3 rs abort ->
    gbasic (t1 ++ tok (TArgument ps) p :: t2 ++ t3) (mkbasic (argument_of ps p) env args rs abort p).

Inductive gpipe : list token -> list basic_command -> Prop :=
| gpi_nil : gpipe [] []
| gpi_cons p t1 b t2 bs : gbasic t1 b -> gpipe t2 bs -> gpipe (tok TPipe p :: t1 ++ t2) (b :: bs).

Inductive gcommand : list token -> command -> Prop :=
| gc t1 b t2 bs : gbasic t1 b -> gpipe t2 bs -> gcommand (t1 ++ t2) (mkcommand b bs).

(** Commands after the first semicolon; the last one may be followed by another semicolon. *)
Inductive gcommands : list token -> list command -> Prop :=
| gcs_nil : gcommands [] []
| gcs_one ts c : gcommand ts c -> gcommands ts [c]
| gcs_cons t1 c p t2 cs : gcommand t1 c -> gcommands t2 cs -> gcommands (t1 ++ tok TSemicolon p :: t2) (c :: cs).

Definition opens (k : token_kind) : option block_kind :=
  match k with
  | TCommand => Some Synchronous
  | TAsyncCommand => Some Asynchronous
  | TCaptureCommand => Some Capture
  | _ => None
  end.

Inductive gcommand_block : list token -> command_block -> pos -> Prop :=
| gcb_one k kind p t1 c q :
    opens k = Some kind -> gcommand t1 c ->
    gcommand_block (tok k p :: t1 ++ [tok TCloseCommand q]) (mkblock kind c []) p
| gcb_more k kind p t1 c sp t2 cs q :
    opens k = Some kind -> gcommand t1 c -> gcommands t2 cs ->
    gcommand_block (tok k p :: t1 ++ tok TSemicolon sp :: t2 ++ [tok TCloseCommand q]) (mkblock kind c cs) p.

(** ** Expressions, statements, blocks *)

Inductive gparams : list token -> list (symbol * pos) -> Prop :=
| gpa_nil : gparams [] []
| gpa_one s p : gparams [tok (TIdentifier s) p] [(s, p)]
| gpa_cons s p q ts ps :
    gparams ts ps -> gparams (tok (TIdentifier s) p :: tok TComma q :: ts) ((s, p) :: ps).

(** [gexpr l ts e]: the tokens [ts] are the expression [e], made of operators of level at most
    [l].  Level 0 is a primary expression, level 1 adds calls, accesses and [?], level 2 the
    prefix operators, levels 3 to 9 the binary operators, all left associative. *)
Inductive gexpr : nat -> list token -> expr -> Prop :=
| g_ident s p : gexpr 0 [tok (TIdentifier s) p] (EIdent s p)
| g_self p : gexpr 0 [kw KSelf p] (ESelf p)
| g_literal l p : gexpr 0 [tok (TLiteral l) p] (ELit l p)
| g_array p ts items q :
    gexprs ts items -> gexpr 0 (tok TOpenBracket p :: ts ++ [tok TCloseBracket q]) (EArray items p)
| g_dict p ts items q :
    gitems ts items -> gexpr 0 (tok TOpenDict p :: ts ++ [tok TCloseBracket q]) (EDict items p)
| g_function p ts ps b : gfunction ts ps b -> gexpr 0 (kw KFunction p :: ts) (EFunction ps b p)
| g_command ts b p : gcommand_block ts b p -> gexpr 0 ts (ECommand b p)
| g_if p ts c t e q : gcond ts c t e -> gexpr 0 (kw KIf p :: ts ++ [kw KEnd q]) (EIf c t e p)
| g_parens p ts e q : gexpr 9 ts e -> gexpr 0 (tok TOpenParens p :: ts ++ [tok TCloseParens q]) e
| g_call t1 e p t2 args q :
    gexpr 1 t1 e -> gexprs t2 args ->
    gexpr 1 (t1 ++ tok TOpenParens p :: t2 ++ [tok TCloseParens q]) (ECall e args p)
| g_index t1 e p t2 f q :
    gexpr 1 t1 e -> gexpr 9 t2 f ->
    gexpr 1 (t1 ++ tok TOpenBracket p :: t2 ++ [tok TCloseBracket q]) (EAccess e f p)
| g_dot t1 e p s q :
    gexpr 1 t1 e -> gexpr 1 (t1 ++ [tok (TOperator ODot) p; tok (TIdentifier s) q]) (EAccess e (EFieldName s q) p)
| g_try t1 e p : gexpr 1 t1 e -> gexpr 1 (t1 ++ [tok (TOperator OTry) p]) (EUnary UTry e p)
| g_prefix o u p ts e :
    prefix o = Some u -> gexpr 2 ts e -> gexpr 2 (tok (TOperator o) p :: ts) (EUnary u e p)
| g_binary l o b p t1 e1 t2 e2 :
    binop o = Some (S l, b) -> gexpr (S l) t1 e1 -> gexpr l t2 e2 ->
    gexpr (S l) (t1 ++ tok (TOperator o) p :: t2) (EBinary e1 b e2 p)
| g_up l ts e : l < 9 -> gexpr l ts e -> gexpr (S l) ts e

(** expressions separated by commas, possibly with a comma at the end *)
with gexprs : list token -> list expr -> Prop :=
| gx_nil : gexprs [] []
| gx_one ts e : gexpr 9 ts e -> gexprs ts [e]
| gx_cons t1 e p t2 es : gexpr 9 t1 e -> gexprs t2 es -> gexprs (t1 ++ tok TComma p :: t2) (e :: es)

with gitems : list token -> list ((symbol * pos) * expr) -> Prop :=
| gi_nil : gitems [] []
| gi_one s p q ts e :
    gexpr 9 ts e -> gitems (tok (TIdentifier s) p :: tok TColon q :: ts) [((s, p), e)]
| gi_cons s p q t1 e r t2 items :
    gexpr 9 t1 e -> gitems t2 items ->
    gitems (tok (TIdentifier s) p :: tok TColon q :: t1 ++ tok TComma r :: t2) (((s, p), e) :: items)

(** parameters and body of a function *)
with gfunction : list token -> list (symbol * pos) -> block -> Prop :=
| gf p t1 ps q t2 ss r :
    gparams t1 ps -> gstatements true t2 ss ->
    gfunction (tok TOpenParens p :: t1 ++ tok TCloseParens q :: t2 ++ [kw KEnd r]) ps (BBlock ss)

(** condition, then block, else part *)
with gcond : list token -> expr -> block -> block -> Prop :=
| gcn t1 c p t2 ss t3 e :
    gexpr 9 t1 c -> gstatements true t2 ss -> gelse t3 e ->
    gcond (t1 ++ kw KThen p :: t2 ++ t3) c (BBlock ss) e

with gelse : list token -> block -> Prop :=
| gel_none : gelse [] (BBlock [])
| gel_else p ts ss : gstatements true ts ss -> gelse (kw KElse p :: ts) (BBlock ss)
| gel_elseif p ts c t e : gcond ts c t e -> gelse (kw KElseIf p :: ts) (BBlock [SExpr (EIf c t e p)])

(** one statement other than return; the flag tells that it ends with an expression *)
with gstatement : list token -> statement -> bool -> Prop :=
| gs_let p s q r ts e :
    gexpr 9 ts e ->
    gstatement (kw KLet p :: tok (TIdentifier s) q :: tok (TOperator OAssign) r :: ts) (SLet s e q) true
| gs_let_nil p s q :
    gstatement [kw KLet p; tok (TIdentifier s) q] (SLet s (ELit LNil q) q) false
| gs_function p s q ts ps b :
    gfunction ts ps b ->
    gstatement (kw KFunction p :: tok (TIdentifier s) q :: ts) (SLet s (EFunction ps b p) q) false
| gs_break p : gstatement [kw KBreak p] (SBreak p) false
| gs_while p t1 c q t2 ss r :
    gexpr 9 t1 c -> gstatements true t2 ss ->
    gstatement (kw KWhile p :: t1 ++ kw KDo q :: t2 ++ [kw KEnd r]) (SWhile c (BBlock ss) p) false
| gs_for p s q r t1 e u t2 ss v :
    gexpr 9 t1 e -> gstatements true t2 ss ->
    gstatement (kw KFor p :: tok (TIdentifier s) q :: kw KIn r :: t1 ++ kw KDo u :: t2 ++ [kw KEnd v])
      (SFor s e (BBlock ss) q) false
| gs_assign t1 e1 p t2 e2 :
    gexpr 9 t1 e1 -> gexpr 9 t2 e2 ->
    gstatement (t1 ++ tok (TOperator OAssign) p :: t2) (SAssign e1 e2 p) true
| gs_expr ts e : gexpr 9 ts e -> gstatement ts (SExpr e) true

(** Statements in a row.  A return is the last one.  An expression extends as far as possible.
    The flag tells that [end], [else] or [elseif] comes next; only then can a return do
    without an expression. *)
with gstatements : bool -> list token -> list statement -> Prop :=
| gss_nil nested : gstatements nested [] []
| gss_return nested p ts e : gexpr 9 ts e -> gstatements nested (kw KReturn p :: ts) [SReturn e p]
| gss_return_nil p : gstatements true [kw KReturn p] [SReturn (ELit LNil p) p]
| gss_cons nested t1 s ends t2 ss :
    gstatement t1 s ends -> gstatements nested t2 ss -> (ends = true -> continues t2 = false) ->
    gstatements nested (t1 ++ t2) (s :: ss).

Definition ends_in_return (ss : list statement) : Prop :=
  exists ss' e p, ss = ss' ++ [SReturn e p].

(** A whole source.  What the parser does when a return at the top level is followed by more:
    the statements before and including the return are not part of the tree (see DESIGN.md). *)
Inductive gprogram : list token -> block -> Prop :=
| gp_last ts ss : gstatements false ts ss -> gprogram ts (BBlock ss)
| gp_more t1 ss t2 b :
    gstatements false t1 ss -> ends_in_return ss -> t2 <> [] -> continues t2 = false ->
    gprogram t2 b -> gprogram (t1 ++ t2) b.

(** ** Trees without placeholders *)

Definition wf_pos (p : pos) : Prop := (1 <= line p)%N.

Definition wf_part (p : ast_part) : Prop := match p with APUnit u => plain_unit u | APExpansion _ => True end.

Definition wf_argument (a : ast_argument) : Prop := Forall wf_part (arg_parts a) /\ wf_pos (arg_pos a).

Definition wf_redirection (r : redirection) : Prop :=
  match r with
  | RIllFormed => False
  | ROutputTo _ (RFd _) => True
  | ROutputTo _ (ROverwrite a | RAppend a) => wf_argument a
  | RInputFrom _ a => wf_argument a
  end.

Definition wf_basic (b : basic_command) : Prop :=
  wf_argument (bc_program b) /\ Forall (fun kv => plain_unit (fst kv) /\ wf_argument (snd kv)) (bc_env b) /\
  Forall wf_argument (bc_arguments b) /\ Forall wf_redirection (bc_redirections b) /\ wf_pos (bc_pos b).

Definition wf_command (c : command) : Prop := wf_basic (cmd_head c) /\ Forall wf_basic (cmd_tail c).

Definition wf_command_block (b : command_block) : Prop :=
  wf_command (cb_head b) /\ Forall wf_command (cb_tail b).

Section AllOf.
  Context {A : Type} (f : A -> Prop).
  Fixpoint all_of (l : list A) : Prop := match l with [] => True | x :: l => f x /\ all_of l end.
End AllOf.

Definition wf_name (sp : symbol * pos) : Prop := plain_name (fst sp) /\ wf_pos (snd sp).

Fixpoint wf_expr (e : expr) : Prop :=
  match e with
  | EIllFormed => False
  | ESelf p | ELit _ p => wf_pos p
  | EIdent s p | EFieldName s p => plain_name s /\ wf_pos p
  | EArray es p => all_of wf_expr es /\ wf_pos p
  | EDict items p => all_of (fun kv => wf_name (fst kv) /\ wf_expr (snd kv)) items /\ wf_pos p
  | EFunction ps b p => all_of wf_name ps /\ wf_block b /\ wf_pos p
  | EUnary _ e p => wf_expr e /\ wf_pos p
  | EBinary l _ r p => wf_expr l /\ wf_expr r /\ wf_pos p
  | EIf c t e p => wf_expr c /\ wf_block t /\ wf_block e /\ wf_pos p
  | EAccess o f p => wf_expr o /\ wf_expr f /\ wf_pos p
  | ECall f args p => wf_expr f /\ all_of wf_expr args /\ wf_pos p
  | ECommand b p => wf_command_block b /\ wf_pos p
  end
with wf_statement (s : statement) : Prop :=
  match s with
  | SIllFormed => False
  | SLet s e p => plain_name s /\ wf_expr e /\ wf_pos p
  | SAssign l r p => wf_expr l /\ wf_expr r /\ wf_pos p
  | SReturn e p => wf_expr e /\ wf_pos p
  | SBreak p => wf_pos p
  | SWhile c b p => wf_expr c /\ wf_block b /\ wf_pos p
  | SFor s e b p => plain_name s /\ wf_expr e /\ wf_block b /\ wf_pos p
  | SExpr e => wf_expr e
  end
with wf_block (b : block) : Prop :=
  match b with BIllFormed => False | BBlock ss => all_of wf_statement ss end.
