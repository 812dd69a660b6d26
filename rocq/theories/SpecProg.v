(** What is meant by "printed so that one can tell programs apart". *)
From Coq Require Import Strings.String.
From Verif Require Import Base Lexer Ast Program Value Text StdLib SpecLexer SpecParser SpecAst.

(** ** Programs without what is not in their text *)
Definition nowhere : pos := mkpos 0 0.

Section Bare.
(** How floats are shown: two floats shown alike are one. *)
Variable float_display : bytes -> bytes.

Definition bare_literal (l : literal) : literal := match l with LFloat t => LFloat (float_display t) | _ => l end.

(** The order of captures does not matter, and of two into one slot the later counts. *)
Definition into (fi : frame_info) (s : slot) : list capture :=
  match rev (filter (fun c => cap_to c =? s) (fi_captures fi)) with
  | c :: _ => [mkcapture (cap_from c) s]
  | [] => []
  end.
Definition bare_frame (fi : frame_info) : frame_info :=
  mkframe_info (fi_slots fi) (flat_map (into fi) (seq 0 (fi_slots fi))) (fi_self fi).

Definition bare_unit (u : xunit) : xunit := match u with XUDollar s _ => XUDollar s nowhere | _ => u end.
Definition bare_part (p : xpart) : xpart := match p with XPUnit u => XPUnit (bare_unit u) | _ => p end.
Definition bare_argument (a : xargument) : xargument := mkxarg (map bare_part (xa_parts a)) nowhere.
Definition bare_target (t : xtarget) : xtarget :=
  match t with
  | XFd fd => XFd fd
  | XOverwrite a => XOverwrite (bare_argument a)
  | XAppend a => XAppend (bare_argument a)
  end.
Definition bare_redirection (r : xredirection) : xredirection :=
  match r with
  | XOutput s t => XOutput s (bare_target t)
  | XInput l a => XInput l (bare_argument a)
  end.
Definition bare_basic (b : xbasic) : xbasic :=
  mkxbasic (bare_argument (xb_program b)) (map (fun kv => (bare_unit (fst kv), bare_argument (snd kv))) (xb_env b))
    (map bare_argument (xb_arguments b)) (map bare_redirection (xb_redirections b)) (xb_abort b) nowhere.
Definition bare_command (c : xcommand) : xcommand :=
  match c with
  | XBuiltin b args abort _ => XBuiltin b (map bare_argument args) abort nowhere
  | XExternal head tail => XExternal (bare_basic head) (map bare_basic tail)
  end.
Definition bare_block (b : xblock) : xblock :=
  mkxblock (xc_kind b) (bare_command (xc_head b)) (map bare_command (xc_tail b)).

Fixpoint bare (e : xexpr) : xexpr :=
  match e with
  | XIdent s _ => XIdent s nowhere
  | XLit l _ => XLit (bare_literal l) nowhere
  | XFieldName s _ => XFieldName s nowhere
  | XArray items _ => XArray (map bare items) nowhere
  | XDict items _ => XDict (map (fun kv => (fst kv, bare (snd kv))) items) nowhere
  | XFunction params fi body _ => XFunction params (bare_frame fi) (map bare_statement body) nowhere
  | XUnary op e _ => XUnary op (bare e) nowhere
  | XBinary l op r _ => XBinary (bare l) op (bare r) nowhere
  | XIf c t e _ => XIf (bare c) (map bare_statement t) (map bare_statement e) nowhere
  | XAccess o f _ => XAccess (bare o) (bare f) nowhere
  | XCall f args _ => XCall (bare f) (map bare args) nowhere
  | XCommand b _ => XCommand (bare_block b) nowhere
  end
with bare_lvalue (l : lvalue) : lvalue :=
  match l with
  | LIdent s _ => LIdent s nowhere
  | LAccess o f _ => LAccess (bare o) (bare f) nowhere
  end
with bare_statement (s : xstatement) : xstatement :=
  match s with
  | XAssign l r => XAssign (bare_lvalue l) (bare r)
  | XReturn e => XReturn (bare e)
  | XBreak => XBreak
  | XWhile c b => XWhile (bare c) (map bare_statement b)
  | XFor s e b => XFor s (bare e) (map bare_statement b)
  | XExpr e => XExpr (bare e)
  end.
Definition bare_program (p : program) : program := mkprogram (map bare_statement (pr_statements p)) (pr_root_slots p).
End Bare.

(** ** Legible programs *)

(** The escape sequences of [escape_debug], but for those with a number. *)
Definition debug_escapes : list (byte * byte) :=
  [("n", x0a); ("t", x09); ("r", x0d); ("0", x00); (BSLASH, BSLASH); ("'", "'"); (QUOTE, QUOTE)]%byte.
(** Inside an argument these bytes have a meaning. *)
Definition argument_plain (c : byte) : bool := negb (existsb (Byte.eqb c) [QUOTE; "$"; "*"; "%"; "~"]%byte).

Section Legible.
(** How strings and floats are shown *)
Variables (escape float_display : bytes -> bytes).

(** A float has to be shown with a dot: [1.0] is shown like [1]. *)
Definition legible_literal (l : literal) : Prop :=
  match l with
  | LNil | LTrue | LFalse | LInt _ => True
  | LFloat t => exists a b, all_digits a /\ all_digits b /\ float_display t = a ++ "."%byte :: b
  | LString s => spelling string_plain debug_escapes (escape s) s
  | LByte c => spelling single_plain debug_escapes (escape (char_text c)) (char_text c)
  end.

Definition legible_frame (fi : frame_info) : Prop :=
  Forall (fun c => cap_to c < fi_slots fi) (fi_captures fi) /\
  match fi_self fi with Some s => s < fi_slots fi | None => True end.

(** The literal parts of an argument have to be free of what looks like expansions, and cannot be
    told apart when they are next to each other or empty. *)
Fixpoint legible_parts (ps : list xpart) : Prop :=
  match ps with
  | [] => True
  | XPUnit (XULiteral s) :: ps' =>
      s <> [] /\ spelling argument_plain debug_escapes (escape s) s /\
      match ps' with XPUnit (XULiteral _) :: _ => False | _ => True end /\ legible_parts ps'
  | _ :: ps' => legible_parts ps'
  end.
Definition legible_argument (a : xargument) : Prop := legible_parts (xa_parts a).
Definition legible_key (u : xunit) : Prop := 
  match u with XULiteral s => s <> [] /\ Forall (fun c => word_byte c = true) s | XUDollar _ _ => True end.
Definition legible_redirection (r : xredirection) : Prop :=
  match r with
  | XOutput _ (XFd _) => True
  | XOutput _ (XOverwrite a | XAppend a) | XInput _ a => legible_argument a
  end.
Definition legible_basic (b : xbasic) : Prop :=
  legible_argument (xb_program b) /\ Forall (fun kv => legible_key (fst kv) /\ legible_argument (snd kv)) (xb_env b) /\
  Forall legible_argument (xb_arguments b) /\ Forall legible_redirection (xb_redirections b).
Definition legible_command (c : xcommand) : Prop :=
  match c with
  | XBuiltin _ args _ _ => Forall legible_argument args
  | XExternal head tail => legible_basic head /\ Forall legible_basic tail
  end.
Definition legible_block (b : xblock) : Prop := legible_command (xc_head b) /\ Forall legible_command (xc_tail b).

Fixpoint legible (e : xexpr) : Prop :=
  match e with
  | XIdent _ _ => True
  | XLit l _ => legible_literal l
  | XFieldName _ _ => False
  | XArray items _ => all_of legible items
  | XDict items _ => all_of (fun kv => is_identifier (fst kv) /\ legible (snd kv)) items
  | XFunction _ fi body _ => legible_frame fi /\ all_of legible_statement body
  | XUnary _ e _ => legible e
  | XBinary l _ r _ => legible l /\ legible r
  | XIf c t e _ => legible c /\ all_of legible_statement t /\ all_of legible_statement e
  | XAccess o f _ => legible o /\ match f with XFieldName s _ => is_identifier s | _ => legible f end
  | XCall f args _ => legible f /\ all_of legible args
  | XCommand b _ => legible_block b
  end
with legible_lvalue (l : lvalue) : Prop :=
  match l with
  | LIdent _ _ => True
  | LAccess o f _ => legible o /\ match f with XFieldName s _ => is_identifier s | _ => legible f end
  end
with legible_statement (s : xstatement) : Prop :=
  match s with
  | XAssign l r => legible_lvalue l /\ legible r
  | XReturn e | XExpr e => legible e
  | XBreak => True
  | XWhile c b => legible c /\ all_of legible_statement b
  | XFor _ e b => legible e /\ all_of legible_statement b
  end.
Definition legible_program (p : program) : Prop := all_of legible_statement (pr_statements p).
End Legible.

(** ** Marks *)
Definition marked (text : bytes) : Prop := exists t, text = t ++ bs " ?".
