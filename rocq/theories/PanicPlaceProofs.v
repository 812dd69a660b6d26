(** All places in a program are places of its text. *)
From Coq Require Import Strings.String.
From Verif Require Import Base Lexer Ast Parser Program Sema Value SpecLexer SpecParser SpecSema SpecFirst SpecPanic
  LexerFactsProofs ParserSoundProofs ParserFactsProofs SemaFactsProofs SemaTextProofs PlaceProofs.

(** ** Places in a tree *)
Definition apart_places (p : ast_part) : list pos := match p with APUnit u => unit_places u | APExpansion _ => [] end.
Definition aarg_places (a : ast_argument) : list pos := arg_pos a :: flat_map apart_places (arg_parts a).
Definition aredir_places (r : redirection) : list pos :=
  match r with
  | ROutputTo _ (ROverwrite a) | ROutputTo _ (RAppend a) | RInputFrom _ a => aarg_places a
  | _ => []
  end.
Definition abasic_places (c : basic_command) : list pos :=
  bc_pos c :: aarg_places (bc_program c) ++
  flat_map (fun kv => unit_places (fst kv) ++ aarg_places (snd kv)) (bc_env c) ++
  flat_map aarg_places (bc_arguments c) ++ flat_map aredir_places (bc_redirections c).
Definition acommand_places (c : command) : list pos :=
  abasic_places (cmd_head c) ++ flat_map abasic_places (cmd_tail c).
Definition ablock_places (b : command_block) : list pos :=
  acommand_places (cb_head b) ++ flat_map acommand_places (cb_tail b).

Fixpoint aexpr_places (e : expr) : list pos :=
  match e with
  | EIllFormed => []
  | ESelf p | EIdent _ p | ELit _ p | EFieldName _ p => [p]
  | EArray es p => p :: flat_map aexpr_places es
  | EDict items p => p :: flat_map (fun kv => aexpr_places (snd kv)) items
  | EFunction _ b p => p :: abody_places b
  | EUnary _ e p => p :: aexpr_places e
  | EBinary l _ r p => p :: aexpr_places l ++ aexpr_places r
  | EIf c t e p => p :: aexpr_places c ++ abody_places t ++ abody_places e
  | EAccess o f p => p :: aexpr_places o ++ aexpr_places f
  | ECall f args p => p :: aexpr_places f ++ flat_map aexpr_places args
  | ECommand b p => p :: ablock_places b
  end
with astatement_places (s : statement) : list pos :=
  match s with
  | SIllFormed => []
  | SBreak _ => []
  | SLet _ e p => p :: aexpr_places e
  | SReturn e _ | SExpr e => aexpr_places e
  | SAssign l r _ => aexpr_places l ++ aexpr_places r
  | SWhile c b _ => aexpr_places c ++ abody_places b
  | SFor _ e b _ => aexpr_places e ++ abody_places b
  end
with abody_places (b : block) : list pos :=
  match b with BIllFormed => [] | BBlock ss => flat_map astatement_places ss end.

(** ** Places in a program *)
Definition xunit_places (u : xunit) : list pos := match u with XULiteral _ => [] | XUDollar _ p => [p] end.
Definition xpart_places (p : xpart) : list pos := match p with XPUnit u => xunit_places u | _ => [] end.
Definition xarg_places (a : xargument) : list pos := xa_pos a :: flat_map xpart_places (xa_parts a).
Definition xredir_places (r : xredirection) : list pos :=
  match r with
  | XOutput _ (XOverwrite a) | XOutput _ (XAppend a) | XInput _ a => xarg_places a
  | _ => []
  end.
Definition xbasic_places (c : xbasic) : list pos :=
  xb_pos c :: xarg_places (xb_program c) ++
  flat_map (fun kv => xunit_places (fst kv) ++ xarg_places (snd kv)) (xb_env c) ++
  flat_map xarg_places (xb_arguments c) ++ flat_map xredir_places (xb_redirections c).
Definition xcommand_places (c : xcommand) : list pos :=
  match c with
  | XBuiltin _ args _ p => p :: flat_map xarg_places args
  | XExternal c cs => xbasic_places c ++ flat_map xbasic_places cs
  end.
Definition xblock_places (b : xblock) : list pos :=
  xcommand_places (xc_head b) ++ flat_map xcommand_places (xc_tail b).

Fixpoint xexpr_places (e : xexpr) : list pos :=
  match e with
  | XIdent _ p | XLit _ p | XFieldName _ p => [p]
  | XArray es p => p :: flat_map xexpr_places es
  | XDict items p => p :: flat_map (fun kv => xexpr_places (snd kv)) items
  | XFunction _ _ b p => p :: flat_map xstatement_places b
  | XUnary _ e p => p :: xexpr_places e
  | XBinary l _ r p => p :: xexpr_places l ++ xexpr_places r
  | XIf c t e p => p :: xexpr_places c ++ flat_map xstatement_places t ++ flat_map xstatement_places e
  | XAccess o f p => p :: xexpr_places o ++ xexpr_places f
  | XCall f args p => p :: xexpr_places f ++ flat_map xexpr_places args
  | XCommand b p => p :: xblock_places b
  end
with xstatement_places (s : xstatement) : list pos :=
  match s with
  | XAssign (LIdent _ p) r => p :: xexpr_places r
  | XAssign (LAccess o f p) r => p :: xexpr_places o ++ xexpr_places f ++ xexpr_places r
  | XReturn e | XExpr e => xexpr_places e
  | XBreak => []
  | XWhile c b => xexpr_places c ++ flat_map xstatement_places b
  | XFor _ e b => xexpr_places e ++ flat_map xstatement_places b
  end.

(** ** Inclusion *)
Ltac at_in := first
  [ assumption | left; reflexivity | right; at_in | apply in_or_app; left; at_in | apply in_or_app; right; at_in ].
Ltac inc := first
  [ assumption | apply incl_refl | apply incl_nil_l | apply incl_cons; [at_in|inc] | apply incl_app; [inc|inc]
  | apply incl_tl; inc | apply incl_appl; inc | apply incl_appr; inc ].

Notation tplaces := (flat_map token_places).
Ltac tp := repeat (rewrite flat_map_app || cbn [flat_map token_places tk_pos tk_kind app]); rewrite ?app_nil_r.

Lemma joined_places ps : flat_map apart_places (joined ps) = flat_map apart_places ps.
Proof.
  induction ps as [|x ps IH]; [reflexivity|]. cbn [joined flat_map]. destruct x as [[a|s p]|e]; cbn [apart_places unit_places app].
  - rewrite <- IH. destruct (joined ps) as [|[[b|s p]|e] r]; try reflexivity; destruct a; reflexivity.
  - cbn [flat_map apart_places unit_places app]. now rewrite IH.
  - cbn [flat_map apart_places app]. exact IH.
Qed.

Lemma argument_places ps p : aarg_places (argument_of ps p) = p :: flat_map part_places ps.
Proof.
  unfold aarg_places, argument_of. cbn [arg_pos arg_parts]. f_equal. rewrite joined_places.
  induction ps as [|x ps IH]; [reflexivity|]. cbn [flat_map]. rewrite flat_map_app, IH. f_equal.
  destruct x as [u|s|us|e|]; cbn; rewrite ?app_nil_r; try reflexivity.
  rewrite flat_map_map. reflexivity.
Qed.

Lemma redirection_places a ts r : gredirection a ts r -> incl (aredir_places r) (tplaces ts).
Proof.
  intros [a' l p ps q|a' s ts' p ps q H|a' s ts' p t n q H H'|a' s ts' p ps q H H']; cbn [aredir_places]; rewrite ?argument_places; tp; inc.
Qed.

Lemma operators_places a ts rs ab : goperators a ts rs ab -> incl (flat_map aredir_places rs) (tplaces ts).
Proof.
  induction 1 as [a|a p|a t1 r t2 rs ab H _ IH]; [apply incl_nil_l|apply incl_nil_l|].
  apply redirection_places in H. cbn [flat_map]. tp. inc.
Qed.
Lemma arguments_places rest ts args : garguments rest ts args -> incl (flat_map aarg_places args) (tplaces ts).
Proof.
  induction 1 as [|rest ps p ts args _ _ IH]; [apply incl_nil_l|]. cbn [flat_map]. rewrite argument_places. tp. inc.
Qed.
Lemma environment_places ts env : genvironment ts env ->
  incl (flat_map (fun kv => unit_places (fst kv) ++ aarg_places (snd kv)) env) (tplaces ts).
Proof.
  induction 1 as [|key ps p ts env _ IH]; [apply incl_nil_l|]. cbn [flat_map fst snd]. rewrite argument_places.
  cbn [flat_map token_places tk_pos tk_kind part_places app]. inc.
Qed.
Lemma basic_places ts b : gbasic ts b -> incl (abasic_places b) (tplaces ts).
Proof.
  intros [t1 env ps p t2 args t3 rs ab He _ Ha Ho]. unfold abasic_places. cbn [bc_pos bc_program bc_env bc_arguments bc_redirections].
  apply environment_places in He. apply arguments_places in Ha. apply operators_places in Ho. rewrite argument_places. tp. inc.
Qed.
Lemma pipe_places ts l : gpipe ts l -> incl (flat_map abasic_places l) (tplaces ts).
Proof. induction 1 as [|p t1 b t2 l H _ IH]; [apply incl_nil_l|]. apply basic_places in H. cbn [flat_map]. tp. inc. Qed.
Lemma command_places ts c : gcommand ts c -> incl (acommand_places c) (tplaces ts).
Proof. intros [t1 b t2 l H H']. apply basic_places in H. apply pipe_places in H'. unfold acommand_places. cbn [cmd_head cmd_tail]. tp. inc. Qed.
Lemma commands_places ts cs : gcommands ts cs -> incl (flat_map acommand_places cs) (tplaces ts).
Proof.
  induction 1 as [|ts c H|t1 c p t2 cs H _ IH]; [apply incl_nil_l| |]; apply command_places in H; cbn [flat_map]; tp; inc.
Qed.
Lemma block_places ts b p : gcommand_block ts b p -> incl (p :: ablock_places b) (tplaces ts).
Proof.
  intros [k kind q t1 c r Ho H|k kind q t1 c sp t2 cs r Ho H H']; apply command_places in H;
    try apply commands_places in H'; unfold ablock_places; cbn [cb_head cb_tail flat_map]; rewrite ?app_nil_r;
    (apply incl_cons; [left; reflexivity|]); cbn [flat_map]; apply incl_appr; tp; inc.
Qed.

Lemma source_tree_places :
  (forall l ts e, gexpr l ts e -> incl (aexpr_places e) (tplaces ts)) /\
  (forall ts es, gexprs ts es -> incl (flat_map aexpr_places es) (tplaces ts)) /\
  (forall ts items, gitems ts items -> incl (flat_map (fun kv => aexpr_places (snd kv)) items) (tplaces ts)) /\
  (forall ts ps b, gfunction ts ps b -> incl (abody_places b) (tplaces ts)) /\
  (forall ts c t e, gcond ts c t e -> incl (aexpr_places c ++ abody_places t ++ abody_places e) (tplaces ts)) /\
  (forall ts b, gelse ts b -> incl (abody_places b) (tplaces ts)) /\
  (forall ts s ends, gstatement ts s ends -> incl (astatement_places s) (tplaces ts)) /\
  (forall nested ts ss, gstatements nested ts ss -> incl (flat_map astatement_places ss) (tplaces ts)).
Proof.
  apply grammar_ind; intros; cbn [aexpr_places astatement_places abody_places flat_map fst snd];
    rewrite ?app_nil_r; try (apply block_places; assumption); tp; try inc.
Qed.

Lemma source_program_places ts b : gprogram ts b -> incl (abody_places b) (tplaces ts).
Proof.
  induction 1 as [ts ss H|t1 ss t2 b H _ _ _ _ IH].
  - cbn [abody_places]. eapply source_tree_places, H.
  - rewrite flat_map_app. now apply incl_appr.
Qed.

(** ** From the tree to the program *)
Lemma forall2_places {A B} (R : A -> B -> Prop) (f : A -> list pos) (g : B -> list pos) l m :
  Forall2 R l m -> (forall x y, R x y -> incl (g y) (f x)) -> incl (flat_map g m) (flat_map f l).
Proof.
  intros H K. induction H as [|x y l m Hxy _ IH]; [apply incl_nil_l|]. apply K in Hxy. cbn [flat_map]. inc.
Qed.

Lemma xunit_incl en u x : addr_unit en u x -> incl (xunit_places x) (unit_places u).
Proof. intros [s|s p i _]; apply incl_refl. Qed.
Lemma xpart_incl en u x : addr_part en u x -> incl (xpart_places x) (apart_places u).
Proof. intros [v y H| | |]; try apply incl_refl. exact (xunit_incl _ _ _ H). Qed.
Lemma xarg_incl en u x : addr_argument en u x -> incl (xarg_places x) (aarg_places u).
Proof.
  intros [ps xs p H]. unfold xarg_places, aarg_places. cbn [xa_pos xa_parts arg_pos arg_parts].
  pose proof (forall2_places _ _ _ _ _ H (xpart_incl en)). inc.
Qed.
Lemma xredir_incl en u x : addr_redirection en u x -> incl (xredir_places x) (aredir_places u).
Proof. intros [s fd|s a y H|s a y H|l a y H]; try apply incl_refl; exact (xarg_incl _ _ _ H). Qed.
Lemma xbasic_incl en u x : addr_basic en u x -> incl (xbasic_places x) (abasic_places u).
Proof.
  intros [pr xpr vars xvars args xargs rs xrs ab p H1 H2 H3 H4]. unfold xbasic_places, abasic_places.
  cbn [xb_pos xb_program xb_env xb_arguments xb_redirections bc_pos bc_program bc_env bc_arguments bc_redirections].
  apply xarg_incl in H1.
  apply (forall2_places _ (fun kv => unit_places (fst kv) ++ aarg_places (snd kv)) (fun kv => xunit_places (fst kv) ++ xarg_places (snd kv))) in H2.
  2: { intros kv xkv [A B]. apply xunit_incl in A. apply xarg_incl in B. inc. }
  pose proof (forall2_places _ _ _ _ _ H3 (xarg_incl en)). pose proof (forall2_places _ _ _ _ _ H4 (xredir_incl en)). inc.
Qed.
Lemma xcommand_incl en k u x : addr_command en k u x -> incl (xcommand_places x) (acommand_places u).
Proof.
  intros [b w vars args xargs ab p q _ H|k' c xc cs xcs _ _ H H']; cbn [xcommand_places]; unfold acommand_places; cbn [cmd_head cmd_tail].
  - pose proof (forall2_places _ _ _ _ _ H (xarg_incl en)). unfold abasic_places.
    cbn [bc_pos bc_program bc_env bc_arguments bc_redirections flat_map]. inc.
  - apply xbasic_incl in H. pose proof (forall2_places _ _ _ _ _ H' (xbasic_incl en)). inc.
Qed.
Lemma xblock_incl en u x : addr_command_block en u x -> incl (xblock_places x) (ablock_places u).
Proof.
  intros [k c xc cs xcs H H']. apply xcommand_incl in H. pose proof (forall2_places _ _ _ _ _ H' (xcommand_incl en k)).
  unfold xblock_places, ablock_places. cbn [xc_head xc_tail cb_head cb_tail]. inc.
Qed.

Lemma program_tree_places :
  (forall fn lp en e x ds, addr_expr fn lp en e x ds -> incl (xexpr_places x) (aexpr_places e)) /\
  (forall fn lp en es xs ds, addr_exprs fn lp en es xs ds -> incl (flat_map xexpr_places xs) (flat_map aexpr_places es)) /\
  (forall fn lp en s x ds en', addr_statement fn lp en s x ds en' -> incl (xstatement_places x) (astatement_places s)) /\
  (forall fn lp en ss xs ds, addr_statements fn lp en ss xs ds ->
     incl (flat_map xstatement_places xs) (flat_map astatement_places ss)) /\
  (forall fn lp en b xs ds, addr_block fn lp en b xs ds -> incl (flat_map xstatement_places xs) (abody_places b)).
Proof.
  apply addr_mut; intros;
    cbn [xexpr_places xstatement_places aexpr_places astatement_places abody_places flat_map];
    repeat match goal with H : addr_command_block _ _ _ |- _ => apply xblock_incl in H end; try inc.
  rewrite !flat_map_map in *. inc.
Qed.

Lemma program_places_text src b les p : analyze src = Analysis b les [] -> sema b = SemaOk p ->
  incl (flat_map xstatement_places (pr_statements p)) (text_places src).
Proof.
  intros H1 H2.
  assert (E : exists r, parse_tokens (source_tokens src) = Parsed b [] r).
  { unfold source_tokens. unfold analyze in H1. destruct (Lexer.lex src) as [os|os|]; [| |discriminate]; cbn [outputs];
      fold (tokens_of os);
      destruct (parse_tokens (tokens_of os)) as [b' es r|]; try discriminate;
      [|destruct r; [discriminate|]]; injection H1 as -> _ ->; eauto. }
  destruct E as (r & E). apply parse_tokens_sound, source_program_places in E.
  destruct (text_accepted _ _ _ _ H1 H2) as [_ (ds & Ha & _)].
  eapply incl_tran; [|exact E]. eapply program_tree_places, Ha.
Qed.
