(** Model of the printing of analysed programs: src/semantic/program/fmt.rs, mem/fmt.rs and
    src/fmt.rs. *)
From Coq Require Import Strings.String.
From Verif Require Import Base Lexer Ast Parser Program Sema Value Text StdLib Json Report AstFmt.

Section ProgFmt.
Context {W : Type}.
Variable X : ext W.
(** [Display for f64], of the number written as the given literal *)
Variable float_display : bytes -> bytes.

(** mem/fmt.rs 10-15 *)
Definition slot_text (s : slot) : bytes := green X (bs "#") ++ green X (int_text (Z.of_nat s)).

(** mem/fmt.rs 40-42: the captures are written into a table of slots one after the other.  Writing
    beyond the table, which stops the process, is not modelled: the analyser makes no such capture
    (C15). *)
Definition captured_from (fi : frame_info) (s : slot) : option slot :=
  fold_left (fun found c => if cap_to c =? s then Some (cap_from c) else found) (fi_captures fi) None.

(** mem/fmt.rs 47-69 *)
Definition slot_line (c : layout_context) (fi : frame_info) (s : slot) : bytes :=
  (match c with Some n => tabs n | None => [x20] end)
  ++ keyword_text X KLet ++ bs " " ++ slot_text s ++ bs ": "
  ++ (match captured_from fi s with
      | None => blue X (bs "auto")
      | Some from => blue X (bs "capture") ++ bs " " ++ slot_text from
      end)
  ++ (if match fi_self fi with Some self => self =? s | None => false end then blue X (bs " self") else []).

(** mem/fmt.rs 18-74 *)
Definition frame_text (c : layout_context) (fi : frame_info) : bytes :=
  sep_by (match c with Some _ => [x0a] | None => bs ";" end) (map (slot_line c fi) (seq 0 (fi_slots fi))).

(** ** Commands *)

(** fmt.rs 411-424 *)
Definition xunit_text (u : xunit) : bytes :=
  match u with
  | XULiteral s => x_escape X s
  | XUDollar s _ => bs "${" ++ slot_text s ++ bs "}"
  end.

(** fmt.rs 427-475, without the expansions that the lexer does not make *)
Definition xpart_text (p : xpart) : bytes :=
  match p with
  | XPUnit u => xunit_text u
  | XPHome => yellow X (bs "~/")
  | XPStar => yellow X (bs "*")
  | XPPercent => yellow X (bs "%")
  end.

(** fmt.rs 478-488 *)
Definition xargument_text (a : xargument) : bytes := [x22] ++ concat (map xpart_text (xa_parts a)) ++ [x22].

(** fmt.rs 491-508 *)
Definition xtarget_text (t : xtarget) : bytes :=
  match t with
  | XFd fd => bs ">" ++ int_text fd
  | XOverwrite a => bs ">" ++ xargument_text a
  | XAppend a => bs ">>" ++ xargument_text a
  end.

(** fmt.rs 511-530 *)
Definition xredirection_text (r : xredirection) : bytes :=
  match r with
  | XOutput source target => int_text source ++ xtarget_text target
  | XInput false source => bs "<" ++ xargument_text source
  | XInput true source => bs "<<" ++ xargument_text source
  end.

(** fmt.rs 533-545 *)
Definition builtin_text (b : builtin) : bytes :=
  green X (bs match b with
              | BAlias => "alias" | BCd => "cd" | BExec => "exec" | BExec0 => "exec0" | BSpawn0 => "spawn0"
              end).

(** fmt.rs 555-583 *)
Definition xbasic_text (b : xbasic) : bytes :=
  concat (map (fun kv => xunit_text (fst kv) ++ yellow X (bs "=") ++ xargument_text (snd kv) ++ bs " ") (xb_env b))
  ++ xargument_text (xb_program b)
  ++ concat (map (fun a => bs " " ++ xargument_text a) (xb_arguments b))
  ++ concat (map (fun r => bs " " ++ xredirection_text r) (xb_redirections b))
  ++ (if xb_abort b then [] else bs " " ++ command_operator_text X CTry).

(** fmt.rs 586-615 *)
Definition xcommand_text (c : xcommand) : bytes :=
  match c with
  | XBuiltin b args abort _ =>
      builtin_text b ++ concat (map (fun a => bs " " ++ xargument_text a) args)
      ++ (if abort then bs " " ++ command_operator_text X CTry else [])
  | XExternal head tail =>
      xbasic_text head ++ concat (map (fun b => bs " " ++ yellow X (bs "|") ++ bs " " ++ xbasic_text b) tail)
  end.

(** fmt.rs 618-650 *)
Definition xblock_text (c : layout_context) (b : xblock) : bytes :=
  block_kind_text (xc_kind b)
  ++ sep_by (bs ";") (map (fun d => step (indent c) ++ xcommand_text d) (xc_head b :: xc_tail b))
  ++ step c ++ bs "}".

(** ** Expressions, statements and blocks: fmt.rs 64-175, 213-408 *)

(** fmt.rs 64-83 *)
Definition lines (c : layout_context) (statements : list bytes) : bytes :=
  sep_by (match c with Some _ => [x0a] | None => bs ";" end)
    (map (fun t => (match c with Some n => tabs n | None => [x20] end) ++ t) statements).

(** fmt.rs 86-175 and 213-408 *)
Fixpoint xexpr_text (c : layout_context) (e : xexpr) {struct e} : bytes :=
  match e with
  | XIdent s _ => slot_text s
  | XLit l _ => literal_text X float_display l
  | XFieldName s _ => symbol_text X s
  | XArray items _ =>
      bs "[" ++ sep_by (bs ",") (map (fun e => step (indent c) ++ xexpr_text (indent c) e) items)
      ++ (match items with [] => [] | _ => step c end) ++ bs "]"
  | XDict items _ =>
      bs "@[" ++ sep_by (bs ",") (map (fun kv =>
        step (indent c) ++ symbol_text X (fst kv) ++ bs ": " ++ xexpr_text (indent c) (snd kv)) items)
      ++ (match items with [] => [] | _ => step c end) ++ bs "]"
  | XFunction params fi body _ =>
      keyword_text X KFunction ++ bs "(" ++ int_text (Z.of_nat params) ++ bs ")" ++ line_end c
      ++ frame_text (indent c) fi ++ gap c
      ++ lines (indent c) (map (xstatement_text (indent c)) body)
      ++ step c ++ keyword_text X KEnd
  | XUnary op e _ =>
      bs "(" ++
      (match op with
       | UTry => xexpr_text inlined e ++ bs " " ++ unary_text X op
       | _ => unary_text X op ++ bs " " ++ xexpr_text inlined e
       end) ++ bs ")"
  | XBinary l op r _ =>
      bs "(" ++ xexpr_text inlined l ++ bs " " ++ binary_text X op ++ bs " " ++ xexpr_text inlined r ++ bs ")"
  | XIf cond t e _ =>
      keyword_text X KIf ++ bs " " ++ xexpr_text inlined cond ++ bs " " ++ keyword_text X KThen ++ line_end c
      ++ (match t with [] => [] | _ => lines (indent c) (map (xstatement_text (indent c)) t) ++ gap c end)
      ++ margin c
      ++ (match e with
          | [] => []
          | _ => keyword_text X KElse ++ line_end c ++ lines (indent c) (map (xstatement_text (indent c)) e)
                 ++ gap c ++ margin c
          end)
      ++ keyword_text X KEnd
  | XAccess o f _ =>
      xexpr_text inlined o ++
      (match f with
       | XFieldName _ _ => bs "." ++ xexpr_text inlined f
       | _ => bs "[" ++ xexpr_text inlined f ++ bs "]"
       end)
  | XCall f args _ =>
      xexpr_text inlined f ++ bs "(" ++ sep_by (bs ", ") (map (xexpr_text inlined) args) ++ bs ")"
  | XCommand b _ => xblock_text c b
  end
with lvalue_text (l : lvalue) {struct l} : bytes :=
  match l with
  | LIdent s _ => slot_text s
  | LAccess o f _ => xexpr_text inlined o ++ bs "[" ++ xexpr_text inlined f ++ bs "]"
  end
with xstatement_text (c : layout_context) (s : xstatement) {struct s} : bytes :=
  match s with
  | XAssign l r => lvalue_text l ++ bs " = " ++ xexpr_text c r
  | XReturn e => keyword_text X KReturn ++ bs " " ++ xexpr_text c e
  | XBreak => keyword_text X KBreak
  | XWhile cond b =>
      keyword_text X KWhile ++ bs " " ++ xexpr_text inlined cond ++ bs " " ++ keyword_text X KDo ++ gap c
      ++ (match b with [] => [] | _ => lines (indent c) (map (xstatement_text (indent c)) b) ++ gap c end)
      ++ margin c ++ keyword_text X KEnd
  | XFor s e b =>
      keyword_text X KFor ++ bs " " ++ slot_text s ++ bs " " ++ keyword_text X KIn ++ bs " "
      ++ xexpr_text inlined e ++ bs " " ++ keyword_text X KDo ++ gap c
      ++ (match b with [] => [] | _ => lines (indent c) (map (xstatement_text (indent c)) b) ++ gap c end)
      ++ margin c ++ keyword_text X KEnd
  | XExpr e => xexpr_text c e
  end.

(** fmt.rs 653-674, with indentation; [path] is the source of the program *)
Definition program_text (path : bytes) (p : program) : bytes :=
  yellow X (bs "Program") ++ bs " for " ++ symbol_text X path ++ [x0a]
  ++ frame_text (Some 0%N) (mkframe_info (pr_root_slots p) [] None)
  ++ step (Some 0%N) ++ lines (Some 0%N) (map (xstatement_text (Some 0%N)) (pr_statements p)).
End ProgFmt.
