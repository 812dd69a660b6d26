(** Model of the printing of syntax trees: src/syntax/ast/fmt.rs and src/fmt.rs. *)
From Coq Require Import Strings.String.
From Verif Require Import Base Lexer Ast Parser Program Sema Value Text StdLib Json Report.

(** src/fmt.rs 81-102.  The level of indentation is a [u8], whose addition wraps in a release build;
    there is no indentation in inline notation (ast/fmt.rs 35-64). *)
Definition layout_context := option N.
(** ast/fmt.rs 46-49 and src/fmt.rs 88-90 *)
Definition indent (c : layout_context) : layout_context := option_map (fun n => ((n + 1) mod 256)%N) c.
(** src/fmt.rs 94-102 *)
Definition tabs (n : N) : bytes := repeat x09 (N.to_nat n).
(** ast/fmt.rs 53-56 *)
Definition inlined : layout_context := None.

(** ast/fmt.rs 661-668 *)
Definition step (c : layout_context) : bytes :=
  match c with Some n => x0a :: tabs n | None => [x20] end.
(** The indentation alone; the step of blocks, which is not followed by indentation. ast/fmt.rs
    661-668. *)
Definition margin (c : layout_context) : bytes := match c with Some n => tabs n | None => [] end.
(** ast/fmt.rs 67-89 *)
Definition line_end (c : layout_context) : bytes := match c with Some _ => [x0a] | None => [] end.
(** ast/fmt.rs 67-89 *)
Definition gap (c : layout_context) : bytes := match c with Some _ => [x0a] | None => [x20] end.

(** src/fmt.rs 106-127 *)
Fixpoint sep_by (sep : bytes) (items : list bytes) : bytes :=
  match items with
  | [] => []
  | [x] => x
  | x :: rest => x ++ sep ++ sep_by sep rest
  end.

(** ast/mod.rs 86-90 *)
Definition is_empty_block (b : block) : bool := match b with BBlock [] => true | _ => false end.

Section AstFmt.
Context {W : Type}.
Variable X : ext W.
(** [Display for f64], of the number written as the given literal *)
Variable float_display : bytes -> bytes.

(** ast/fmt.rs 32 *)
Definition ill_formed_text : bytes := red X (bs "***ill-formed***").

(** ast/fmt.rs 189-219 *)
Definition unary_text (op : unary_op) : bytes :=
  operator_text X match op with UMinus => OMinus | UNot => ONot | UTry => OTry end.
(** ast/fmt.rs 200-219 *)
Definition binary_text (op : binary_op) : bytes :=
  operator_text X
    match op with
    | BPlus => OPlus | BMinus => OMinus | BTimes => OTimes | BDiv => ODiv | BMod => OMod
    | BEquals => OEquals | BNotEquals => ONotEquals | BGreater => OGreater
    | BGreaterEquals => OGreaterEquals | BLower => OLower | BLowerEquals => OLowerEquals
    | BAnd => OAnd | BOr => OOr | BConcat => OConcat
    end.

(** ** Commands *)

(** ast/fmt.rs 416-430 *)
Definition unit_text (u : arg_unit) : bytes :=
  match u with
  | AULiteral s => x_escape X s
  | AUDollar s _ => bs "${" ++ symbol_text X s ++ bs "}"
  end.

(** ast/fmt.rs 433-487, without the expansions that the lexer does not make *)
Definition part_text (p : ast_part) : bytes :=
  match p with
  | APUnit u => unit_text u
  | APExpansion e => arg_expansion_text X e
  end.

(** ast/fmt.rs 490-506 *)
Definition argument_shown (a : ast_argument) : bytes :=
  if pos_eqb (arg_pos a) ill_pos then ill_formed_text
  else [x22] ++ concat (map part_text (arg_parts a)) ++ [x22].

(** ast/fmt.rs 509-527 *)
Definition target_text (t : redirection_target) : bytes :=
  match t with
  | RFd fd => bs ">" ++ int_text fd
  | ROverwrite a => bs ">" ++ argument_shown a
  | RAppend a => bs ">>" ++ argument_shown a
  end.

(** ast/fmt.rs 530-553 *)
Definition redirection_text (r : redirection) : bytes :=
  match r with
  | RIllFormed => ill_formed_text
  | ROutputTo source target => int_text source ++ target_text target
  | RInputFrom false source => bs "<" ++ argument_shown source
  | RInputFrom true source => bs "<<" ++ argument_shown source
  end.

(** ast/fmt.rs 556-586 *)
Definition basic_text (b : basic_command) : bytes :=
  concat (map (fun kv => unit_text (fst kv) ++ yellow X (bs "=") ++ argument_shown (snd kv) ++ bs " ") (bc_env b))
  ++ argument_shown (bc_program b)
  ++ concat (map (fun a => bs " " ++ argument_shown a) (bc_arguments b))
  ++ concat (map (fun r => bs " " ++ redirection_text r) (bc_redirections b))
  ++ (if bc_abort b then [] else bs " " ++ command_operator_text X CTry).

(** ast/fmt.rs 589-604 *)
Definition command_text (c : command) : bytes :=
  basic_text (cmd_head c) ++ concat (map (fun b => bs " " ++ yellow X (bs "|") ++ bs " " ++ basic_text b) (cmd_tail c)).

(** ast/fmt.rs 607-615 *)
Definition block_kind_text (k : block_kind) : bytes :=
  bs match k with Synchronous => "{" | Asynchronous => "&{" | Capture => "${" end.

(** ast/fmt.rs 618-640 *)
Definition command_block_text (c : layout_context) (b : command_block) : bytes :=
  block_kind_text (cb_kind b) ++ step (indent c) ++ command_text (cb_head b)
  ++ concat (map (fun d => bs ";" ++ step (indent c) ++ command_text d) (cb_tail b))
  ++ step c ++ bs "}".

(** ** Expressions, statements and blocks: ast/fmt.rs 67-186, 222-330, 333-413 *)
Fixpoint expr_text (c : layout_context) (e : expr) {struct e} : bytes :=
  match e with
  | EIllFormed => ill_formed_text
  | ESelf _ => keyword_text X KSelf
  | EIdent s _ | EFieldName s _ => symbol_text X s
  | ELit l _ => literal_text X float_display l
  | EArray items _ =>
      bs "[" ++ sep_by (bs ",") (map (fun e => step (indent c) ++ expr_text (indent c) e) items)
      ++ (match items with [] => [] | _ => step c end) ++ bs "]"
  | EDict items _ =>
      bs "@[" ++ sep_by (bs ",") (map (fun kv =>
        step (indent c) ++ symbol_text X (fst (fst kv)) ++ bs ": " ++ expr_text (indent c) (snd kv)) items)
      ++ (match items with [] => [] | _ => step c end) ++ bs "]"
  | EFunction params body _ =>
      keyword_text X KFunction ++ bs "(" ++ sep_by (bs ", ") (map (fun p => symbol_text X (fst p)) params)
      ++ bs ")" ++ line_end c ++ block_text (indent c) body ++ step c ++ keyword_text X KEnd
  | EUnary op e _ =>
      bs "(" ++
      (match op with
       | UTry => expr_text inlined e ++ bs " " ++ unary_text op
       | _ => unary_text op ++ bs " " ++ expr_text inlined e
       end) ++ bs ")"
  | EBinary l op r _ =>
      bs "(" ++ expr_text inlined l ++ bs " " ++ binary_text op ++ bs " " ++ expr_text inlined r ++ bs ")"
  | EIf cond t e _ =>
      keyword_text X KIf ++ bs " " ++ expr_text inlined cond ++ bs " " ++ keyword_text X KThen ++ line_end c
      ++ (if is_empty_block t then [] else block_text (indent c) t ++ gap c)
      ++ margin c
      ++ (if is_empty_block e then []
          else keyword_text X KElse ++ line_end c ++ block_text (indent c) e ++ gap c ++ margin c)
      ++ keyword_text X KEnd
  | EAccess o f _ =>
      expr_text inlined o ++
      (match f with
       | EFieldName _ _ => bs "." ++ expr_text inlined f
       | _ => bs "[" ++ expr_text inlined f ++ bs "]"
       end)
  | ECall f args _ =>
      expr_text inlined f ++ bs "(" ++ sep_by (bs ", ") (map (expr_text inlined) args) ++ bs ")"
  | ECommand b _ => command_block_text c b
  end
with statement_text (c : layout_context) (s : statement) {struct s} : bytes :=
  match s with
  | SIllFormed => ill_formed_text
  | SLet id init _ => keyword_text X KLet ++ bs " " ++ symbol_text X id ++ bs " = " ++ expr_text c init
  | SAssign l r _ => expr_text inlined l ++ bs " = " ++ expr_text c r
  | SReturn e _ => keyword_text X KReturn ++ bs " " ++ expr_text c e
  | SBreak _ => keyword_text X KBreak
  | SWhile cond b _ =>
      keyword_text X KWhile ++ bs " " ++ expr_text inlined cond ++ bs " " ++ keyword_text X KDo ++ gap c
      ++ (if is_empty_block b then [] else block_text (indent c) b ++ gap c)
      ++ margin c ++ keyword_text X KEnd
  | SFor id e b _ =>
      keyword_text X KFor ++ bs " " ++ symbol_text X id ++ bs " " ++ keyword_text X KIn ++ bs " "
      ++ expr_text inlined e ++ bs " " ++ keyword_text X KDo ++ gap c
      ++ (if is_empty_block b then [] else block_text (indent c) b ++ gap c)
      ++ margin c ++ keyword_text X KEnd
  | SExpr e => expr_text c e
  end
with block_text (c : layout_context) (b : block) {struct b} : bytes :=
  match b with
  | BIllFormed => ill_formed_text
  | BBlock ss =>
      sep_by (match c with Some _ => [x0a] | None => bs ";" end)
        (map (fun s => (match c with Some n => tabs n | None => [x20] end) ++ statement_text c s) ss)
  end.

(** ast/fmt.rs 643-658, with indentation *)
Definition ast_text (path : bytes) (b : block) : bytes :=
  yellow X (bs "AST") ++ bs " for " ++ symbol_text X path ++ [x0a] ++ block_text (Some 0%N) b.
End AstFmt.
