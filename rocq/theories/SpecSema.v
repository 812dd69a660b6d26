(** What the semantic analyser is meant to establish: which programs are legal, and what it
    means for the analysed program to address the variables of the source by their scope. *)
From Coq Require Import Strings.String.
From Verif Require Import Base Lexer Ast Program.

(** ** Legal programs

    Only names are considered.  [fn]: inside a function; [lp]: inside a loop of the same
    function; [here]: the names declared so far in the innermost block; [outer]: the other
    names in scope. *)

Definition legal_unit (vars : list symbol) (u : arg_unit) : Prop :=
  match u with AULiteral _ => True | AUDollar s _ => In s vars end.
Definition legal_part (vars : list symbol) (p : ast_part) : Prop :=
  match p with APUnit u => legal_unit vars u | APExpansion _ => True end.
Definition legal_argument (vars : list symbol) (a : ast_argument) : Prop := Forall (legal_part vars) (arg_parts a).
Definition legal_redirection (vars : list symbol) (r : redirection) : Prop :=
  match r with
  | RIllFormed => True
  | ROutputTo _ (RFd _) => True
  | ROutputTo _ (ROverwrite a | RAppend a) | RInputFrom _ a => legal_argument vars a
  end.

(** The words that name a builtin. *)
Definition builtin_names : list (bytes * builtin) :=
  [(bs "alias"%string, BAlias); (bs "cd"%string, BCd); (bs "exec"%string, BExec); (bs "exec0"%string, BExec0);
   (bs "spawn0"%string, BSpawn0)].
Definition calls_builtin (b : builtin) (c : basic_command) : Prop :=
  exists w, In (w, b) builtin_names /\ arg_parts (bc_program c) = [APUnit (AULiteral w)].

Definition legal_basic (vars : list symbol) (c : basic_command) : Prop :=
  (forall b, ~ calls_builtin b c) /\
  legal_argument vars (bc_program c) /\
  Forall (fun kv => legal_unit vars (fst kv) /\ legal_argument vars (snd kv)) (bc_env c) /\
  Forall (legal_argument vars) (bc_arguments c) /\
  Forall (legal_redirection vars) (bc_redirections c).

(** A builtin stands alone, in a plain block, without redirections. *)
Definition legal_command (vars : list symbol) (k : block_kind) (c : command) : Prop :=
  (exists b, calls_builtin b (cmd_head c) /\ k = Synchronous /\ cmd_tail c = [] /\
     bc_redirections (cmd_head c) = [] /\ Forall (legal_argument vars) (bc_arguments (cmd_head c))) \/
  legal_basic vars (cmd_head c) /\ Forall (legal_basic vars) (cmd_tail c).

Definition legal_command_block (vars : list symbol) (b : command_block) : Prop :=
  legal_command vars (cb_kind b) (cb_head b) /\ Forall (legal_command vars (cb_kind b)) (cb_tail b).

(** What a statement adds to its block. *)
Definition declares (s : statement) : list symbol := match s with SLet x _ _ => [x] | _ => [] end.

Section InOrder.
  Context {A : Type} (f : list symbol -> A -> Prop) (d : A -> list symbol).
  Fixpoint in_order (here : list symbol) (l : list A) : Prop :=
    match l with [] => True | x :: l => f here x /\ in_order (d x ++ here) l end.
End InOrder.

Section Each.
  Context {A : Type} (f : A -> Prop).
  Fixpoint each (l : list A) : Prop := match l with [] => True | x :: l => f x /\ each l end.
End Each.

Fixpoint legal_expr (fn lp : bool) (here outer : list symbol) (e : expr) : Prop :=
  match e with
  | EIllFormed => True
  | ESelf _ => fn = true
  | EIdent s _ => In s (here ++ outer)
  | ELit _ _ | EFieldName _ _ => True
  | EArray es _ => each (legal_expr fn lp here outer) es
  | EDict kvs _ => each (fun kv => legal_expr fn lp here outer (snd kv)) kvs
  | EFunction ps body _ =>
    NoDup (map fst ps) /\ legal_block true false (map fst ps) (here ++ outer) body
  | EUnary op e _ => (op = UTry -> fn = true) /\ legal_expr fn lp here outer e
  | EBinary l _ r _ => legal_expr fn lp here outer l /\ legal_expr fn lp here outer r
  | EIf c t e _ =>
    legal_expr fn lp here outer c /\
    legal_block fn lp [] (here ++ outer) t /\ legal_block fn lp [] (here ++ outer) e
  | EAccess o f _ => legal_expr fn lp here outer o /\ legal_expr fn lp here outer f
  | ECall f args _ => legal_expr fn lp here outer f /\ each (legal_expr fn lp here outer) args
  | ECommand b _ => legal_command_block (here ++ outer) b
  end
with legal_statement (fn lp : bool) (outer here : list symbol) (s : statement) : Prop :=
  match s with
  | SIllFormed => True
  | SLet x e _ => ~ In x here /\ legal_expr fn lp (x :: here) outer e
  | SAssign l r _ =>
    match l with EIdent _ _ | EAccess _ _ _ => True | _ => False end /\
    legal_expr fn lp here outer l /\ legal_expr fn lp here outer r
  | SReturn e _ => fn = true /\ legal_expr fn lp here outer e
  | SBreak _ => lp = true
  | SWhile c b _ => legal_expr fn lp here outer c /\ legal_block fn true [] (here ++ outer) b
  | SFor x e b _ => legal_expr fn lp here outer e /\ legal_block fn true [x] (here ++ outer) b
  | SExpr e => legal_expr fn lp here outer e
  end
with legal_block (fn lp : bool) (here outer : list symbol) (b : block) : Prop :=
  match b with
  | BIllFormed => True
  | BBlock ss => in_order (legal_statement fn lp outer) declares here ss
  end.

(** The standard library is the one variable that is there from the start. *)
Definition legal (b : block) : Prop := legal_block false false [bs "std"%string] [] b.

(** ** Addressing

    An environment has an element for every function around, the innermost first: its frame,
    and its blocks around the point at hand, the innermost first, with the slots of their
    variables. *)
Record env_frame := mkenv { ef_info : frame_info; ef_scopes : list (list (symbol * slot)) }.
Definition env := list env_frame.

Inductive first_of (x : symbol) (i : slot) : list (symbol * slot) -> Prop :=
| fo_here l : first_of x i ((x, i) :: l)
| fo_later y j l : y <> x -> first_of x i l -> first_of x i ((y, j) :: l).

Definition absent (x : symbol) (l : list (symbol * slot)) : Prop := ~ In x (map fst l).

(** The slot of the current function in which the variable called [x] is: one of its own
    variables, the innermost if there are many, or else one that it captures from the slot
    where the function around has it. *)
Inductive denotes : env -> symbol -> slot -> Prop :=
| dn_own f en x i : first_of x i (concat (ef_scopes f)) -> denotes (f :: en) x i
| dn_captured f en x from i :
    absent x (concat (ef_scopes f)) -> In (mkcapture from i) (fi_captures (ef_info f)) ->
    denotes en x from -> denotes (f :: en) x i.

Definition enter (en : env) : env :=
  match en with f :: en => mkenv (ef_info f) ([] :: ef_scopes f) :: en | [] => [] end.
Definition extend (en : env) (x : symbol) (i : slot) : env :=
  match en with
  | mkenv fi (sc :: scs) :: en => mkenv fi (((x, i) :: sc) :: scs) :: en
  | _ => en
  end.

Inductive addr_unit (en : env) : arg_unit -> xunit -> Prop :=
| au_literal s : addr_unit en (AULiteral s) (XULiteral s)
| au_dollar x p i : denotes en x i -> addr_unit en (AUDollar x p) (XUDollar i p).

Inductive addr_part (en : env) : ast_part -> xpart -> Prop :=
| ap_unit u x : addr_unit en u x -> addr_part en (APUnit u) (XPUnit x)
| ap_home : addr_part en (APExpansion EHome) XPHome
| ap_star : addr_part en (APExpansion EStar) XPStar
| ap_percent : addr_part en (APExpansion EPercent) XPPercent.

Inductive addr_argument (en : env) : ast_argument -> xargument -> Prop :=
| aa ps xs p : Forall2 (addr_part en) ps xs -> addr_argument en (mkarg ps p) (mkxarg xs p).

Inductive addr_redirection (en : env) : redirection -> xredirection -> Prop :=
| ar_fd s fd : addr_redirection en (ROutputTo s (RFd fd)) (XOutput s (XFd fd))
| ar_overwrite s a x : addr_argument en a x -> addr_redirection en (ROutputTo s (ROverwrite a)) (XOutput s (XOverwrite x))
| ar_append s a x : addr_argument en a x -> addr_redirection en (ROutputTo s (RAppend a)) (XOutput s (XAppend x))
| ar_input l a x : addr_argument en a x -> addr_redirection en (RInputFrom l a) (XInput l x).

Inductive addr_basic (en : env) : basic_command -> xbasic -> Prop :=
| ab pr xpr vars xvars args xargs rs xrs abort p :
    addr_argument en pr xpr ->
    Forall2 (fun kv xkv => addr_unit en (fst kv) (fst xkv) /\ addr_argument en (snd kv) (snd xkv)) vars xvars ->
    Forall2 (addr_argument en) args xargs ->
    Forall2 (addr_redirection en) rs xrs ->
    addr_basic en (mkbasic pr vars args rs abort p) (mkxbasic xpr xvars xargs xrs abort p).

(** The variables set for a builtin are lost. *)
Inductive addr_command (en : env) : block_kind -> command -> xcommand -> Prop :=
| ac_builtin b w vars args xargs abort p q :
    In (w, b) builtin_names -> Forall2 (addr_argument en) args xargs ->
    addr_command en Synchronous
      (mkcommand (mkbasic (mkarg [APUnit (AULiteral w)] q) vars args [] abort p) []) (XBuiltin b xargs abort p)
| ac_external k c xc cs xcs :
    (forall b, ~ calls_builtin b c) -> Forall (fun c => forall b, ~ calls_builtin b c) cs ->
    addr_basic en c xc -> Forall2 (addr_basic en) cs xcs ->
    addr_command en k (mkcommand c cs) (XExternal xc xcs).

Inductive addr_command_block (en : env) : command_block -> xblock -> Prop :=
| acb k c xc cs xcs :
    addr_command en k c xc -> Forall2 (addr_command en k) cs xcs ->
    addr_command_block en (mkblock k c cs) (mkxblock k xc xcs).

Definition option_list {A} (o : option A) : list A := match o with Some a => [a] | None => [] end.

(** [addr_expr fn lp en e x ds]: [x] is [e] with every name replaced by its slot; [ds] are the
    slots given to the variables declared in the blocks of [e], functions apart. *)
Inductive addr_expr : bool -> bool -> env -> expr -> xexpr -> list slot -> Prop :=
| ae_self lp f en p i : fi_self (ef_info f) = Some i -> addr_expr true lp (f :: en) (ESelf p) (XIdent i p) []
| ae_ident fn lp en x p i : denotes en x i -> addr_expr fn lp en (EIdent x p) (XIdent i p) []
| ae_lit fn lp en l p : addr_expr fn lp en (ELit l p) (XLit l p) []
| ae_field fn lp en s p : addr_expr fn lp en (EFieldName s p) (XFieldName s p) []
| ae_array fn lp en es xs p ds : addr_exprs fn lp en es xs ds -> addr_expr fn lp en (EArray es p) (XArray xs p) ds
| ae_dict fn lp en kvs xs p ds :
    addr_exprs fn lp en (map snd kvs) (map snd xs) ds -> map fst xs = map (fun kv => fst (fst kv)) kvs ->
    addr_expr fn lp en (EDict kvs p) (XDict xs p) ds
| ae_function fn lp en ps b p fi xb ds :
    NoDup (map fst ps) ->
    (* the parameters are the first slots *)
    addr_block true false
      (mkenv fi [rev (combine (map fst ps) (seq 0 (List.length ps)))] :: en) b xb ds ->
    (* no two variables, captures or [self] share a slot, and no slot is left over *)
    NoDup (seq 0 (List.length ps) ++ ds ++ map cap_to (fi_captures fi) ++ option_list (fi_self fi)) ->
    (forall i, In i (seq 0 (List.length ps) ++ ds ++ map cap_to (fi_captures fi) ++ option_list (fi_self fi)) <->
       i < fi_slots fi) ->
    (* what is captured is a variable of the functions around *)
    (forall c, In c (fi_captures fi) -> exists x, denotes en x (cap_from c)) ->
    addr_expr fn lp en (EFunction ps b p) (XFunction (List.length ps) fi xb p) []
| ae_unary fn lp en op e x p ds :
    (op = UTry -> fn = true) -> addr_expr fn lp en e x ds -> addr_expr fn lp en (EUnary op e p) (XUnary op x p) ds
| ae_binary fn lp en l op r xl xr p d1 d2 :
    addr_expr fn lp en l xl d1 -> addr_expr fn lp en r xr d2 ->
    addr_expr fn lp en (EBinary l op r p) (XBinary xl op xr p) (d1 ++ d2)
| ae_if fn lp en c t e xc xt xe p d1 d2 d3 :
    addr_expr fn lp en c xc d1 -> addr_block fn lp (enter en) t xt d2 -> addr_block fn lp (enter en) e xe d3 ->
    addr_expr fn lp en (EIf c t e p) (XIf xc xt xe p) (d1 ++ d2 ++ d3)
| ae_access fn lp en o f xo xf p d1 d2 :
    addr_expr fn lp en o xo d1 -> addr_expr fn lp en f xf d2 ->
    addr_expr fn lp en (EAccess o f p) (XAccess xo xf p) (d1 ++ d2)
| ae_call fn lp en f args xf xargs p d1 d2 :
    addr_expr fn lp en f xf d1 -> addr_exprs fn lp en args xargs d2 ->
    addr_expr fn lp en (ECall f args p) (XCall xf xargs p) (d1 ++ d2)
| ae_command fn lp en b x p : addr_command_block en b x -> addr_expr fn lp en (ECommand b p) (XCommand x p) []

with addr_exprs : bool -> bool -> env -> list expr -> list xexpr -> list slot -> Prop :=
| aes_nil fn lp en : addr_exprs fn lp en [] [] []
| aes_cons fn lp en e es x xs d1 d2 :
    addr_expr fn lp en e x d1 -> addr_exprs fn lp en es xs d2 ->
    addr_exprs fn lp en (e :: es) (x :: xs) (d1 ++ d2)

(** the second environment is the one after the statement *)
with addr_statement : bool -> bool -> env -> statement -> xstatement -> list slot -> env -> Prop :=
| as_let fn lp fi sc scs en x e xe p i ds :
    absent x sc -> addr_expr fn lp (extend (mkenv fi (sc :: scs) :: en) x i) e xe ds ->
    addr_statement fn lp (mkenv fi (sc :: scs) :: en) (SLet x e p) (XAssign (LIdent i p) xe) (i :: ds)
      (extend (mkenv fi (sc :: scs) :: en) x i)
| as_assign_ident fn lp en x p i e xe q ds :
    denotes en x i -> addr_expr fn lp en e xe ds ->
    addr_statement fn lp en (SAssign (EIdent x p) e q) (XAssign (LIdent i p) xe) ds en
| as_assign_access fn lp en o f p e xo xf xe q d1 d2 d3 :
    addr_expr fn lp en o xo d1 -> addr_expr fn lp en f xf d2 -> addr_expr fn lp en e xe d3 ->
    addr_statement fn lp en (SAssign (EAccess o f p) e q) (XAssign (LAccess xo xf p) xe) (d1 ++ d2 ++ d3) en
| as_return lp en e x p ds : addr_expr true lp en e x ds -> addr_statement true lp en (SReturn e p) (XReturn x) ds en
| as_break fn en p : addr_statement fn true en (SBreak p) XBreak [] en
| as_while fn lp en c b xc xb p d1 d2 :
    addr_expr fn lp en c xc d1 -> addr_block fn true (enter en) b xb d2 ->
    addr_statement fn lp en (SWhile c b p) (XWhile xc xb) (d1 ++ d2) en
| as_for fn lp en x e b p i xe xb d1 d2 :
    addr_expr fn lp en e xe d1 -> addr_block fn true (extend (enter en) x i) b xb d2 ->
    addr_statement fn lp en (SFor x e b p) (XFor i xe xb) (d1 ++ i :: d2) en
| as_expr fn lp en e x ds : addr_expr fn lp en e x ds -> addr_statement fn lp en (SExpr e) (XExpr x) ds en

with addr_statements : bool -> bool -> env -> list statement -> list xstatement -> list slot -> Prop :=
| ass_nil fn lp en : addr_statements fn lp en [] [] []
| ass_cons fn lp en s ss x xs d1 en' d2 :
    addr_statement fn lp en s x d1 en' -> addr_statements fn lp en' ss xs d2 ->
    addr_statements fn lp en (s :: ss) (x :: xs) (d1 ++ d2)

with addr_block : bool -> bool -> env -> block -> list xstatement -> list slot -> Prop :=
| abl fn lp en ss xs ds : addr_statements fn lp en ss xs ds -> addr_block fn lp en (BBlock ss) xs ds.

(** A whole program: slot 0 is the standard library; the others are the variables. *)
Definition addressed (b : block) (p : program) : Prop :=
  exists ds,
    addr_block false false [mkenv (mkframe_info (pr_root_slots p) [] None) [[(bs "std"%string, 0)]]]
      b (pr_statements p) ds /\
    NoDup (0 :: ds) /\ (forall i, In i (0 :: ds) <-> i < pr_root_slots p).
