(** Every function of a program has a place of its own. *)
From Coq Require Import Strings.String Sorted.
From Verif Require Import Base Lexer Ast Parser Program Sema Value Text StdLib Exec Runtime Demo SpecLexer SpecParser SpecSema SpecRuntime SpecRun SpecShare SpecPlace
  LexerFactsProofs ParserSoundProofs ParserFactsProofs SemaFactsProofs SemaTextProofs ShareProofs.
From Coq Require Import Lia.

(** ** Order of places *)

Lemma before_trans p q r : before p q -> before q r -> before p r.
Proof. unfold before. lia. Qed.
Lemma before_irrefl p : ~ before p p.
Proof. unfold before. lia. Qed.

Lemma count_nl_app a b : count_nl (a ++ b) = (count_nl a + count_nl b)%N.
Proof. induction a as [|c a IH]; [reflexivity|]. cbn [count_nl app]. rewrite IH. lia. Qed.

Lemma count_nl_rev a : count_nl (rev a) = count_nl a.
Proof. induction a as [|c a IH]; [reflexivity|]. cbn [rev]. rewrite count_nl_app, IH. cbn [count_nl]. lia. Qed.

Lemma until_app a b : count_nl a = 0%N -> bytes_until_nl (a ++ b) = (N.of_nat (length a) + bytes_until_nl b)%N.
Proof.
  induction a as [|c a IH]; intros E; [reflexivity|]. cbn [count_nl bytes_until_nl app length] in *.
  destruct (Byte.eqb c NL); [lia|]. rewrite IH by lia. lia.
Qed.

Lemma position_before a b : b <> [] -> before (position_of a) (position_of (a ++ b)).
Proof.
  intros Hb. unfold before, position_of. cbn [line column]. rewrite count_nl_app.
  destruct (N.eq_dec (count_nl b) 0) as [E|E]; [right|left; lia]. split; [lia|].
  rewrite rev_app_distr, until_app by (now rewrite count_nl_rev). rewrite rev_length.
  destruct b; [congruence|]. cbn [length]. lia.
Qed.

Definition not_after (p q : pos) : Prop := p = q \/ before p q.

Lemma position_not_after a b : not_after (position_of a) (position_of (a ++ b)).
Proof.
  destruct b as [|c b]; [left; now rewrite app_nil_r|]. right. apply position_before. discriminate.
Qed.

Lemma not_after_trans p q r : not_after p q -> not_after q r -> not_after p r.
Proof. unfold not_after. intros [->|H1] [->|H2]; auto. right. eapply before_trans; eauto. Qed.
Lemma before_then p q r : before p q -> not_after q r -> before p r.
Proof. intros H [->|H']; auto. eapply before_trans; eauto. Qed.

(** ** Places of tokens *)

Lemma placed_sorted pre rest os : placed pre rest os ->
  Forall (not_after (position_of pre)) (map tk_pos (tokens_of os)) /\
  StronglySorted before (map tk_pos (tokens_of os)).
Proof.
  induction 1 as [pre rest|pre gap text rest t os Ht Hw Hp Hpl [IH1 IH2]|pre rest a b e os E He Hpl IH].
  - split; constructor.
  - cbn [tokens_of flat_map app map]. fold (tokens_of os). rewrite Hp.
    assert (G : before (position_of (pre ++ gap)) (position_of (pre ++ gap ++ text))).
    { rewrite app_assoc. now apply position_before. }
    split; constructor.
    + apply position_not_after.
    + eapply Forall_impl; [|exact IH1]. intros q Hq. right. eapply before_then; [|exact Hq].
      destruct (position_not_after pre gap) as [<-|Hb] in G |- *; [exact G|]. eapply before_trans; eauto.
    + exact IH2.
    + eapply Forall_impl; [|exact IH1]. intros q Hq. eapply before_then; eauto.
  - exact IH.
Qed.

(** ** Functions of a tree *)

Fixpoint places_expr (e : expr) : list pos :=
  match e with
  | EIllFormed | ESelf _ | EIdent _ _ | ELit _ _ | EFieldName _ _ | ECommand _ _ => []
  | EArray es _ => flat_map places_expr es
  | EDict items _ => flat_map (fun kv => places_expr (snd kv)) items
  | EFunction _ b p => p :: places_block b
  | EUnary _ e _ => places_expr e
  | EBinary l _ r _ => places_expr l ++ places_expr r
  | EIf c t e _ => places_expr c ++ places_block t ++ places_block e
  | EAccess o f _ => places_expr o ++ places_expr f
  | ECall f args _ => places_expr f ++ flat_map places_expr args
  end
with places_statement (s : statement) : list pos :=
  match s with
  | SIllFormed | SBreak _ => []
  | SLet _ e _ | SReturn e _ | SExpr e => places_expr e
  | SAssign l r _ => places_expr l ++ places_expr r
  | SWhile c b _ => places_expr c ++ places_block b
  | SFor _ e b _ => places_expr e ++ places_block b
  end
with places_block (b : block) : list pos :=
  match b with BIllFormed => [] | BBlock ss => flat_map places_statement ss end.

(** Some of the elements, in the same order. *)
Inductive among {A} : list A -> list A -> Prop :=
| am_nil l : among [] l
| am_skip x a l : among a l -> among a (x :: l)
| am_take x a l : among a l -> among (x :: a) (x :: l).

Lemma among_app {A} (a b c d : list A) : among a b -> among c d -> among (a ++ c) (b ++ d).
Proof.
  intros H Hc. induction H as [l|x a l _ IH|x a l _ IH]; cbn [app].
  - induction l as [|y l IH]; [exact Hc|]. cbn. now constructor.
  - now apply am_skip.
  - now apply am_take.
Qed.
Lemma among_left {A} (a b d : list A) : among a b -> among a (b ++ d).
Proof. intros H. rewrite <- (app_nil_r a). apply among_app; [exact H|constructor]. Qed.
Lemma among_right {A} (a b d : list A) : among a d -> among a (b ++ d).
Proof. intros H. change a with ([] ++ a). apply among_app; [constructor|exact H]. Qed.

Lemma among_in {A} (a b : list A) x : among a b -> In x a -> In x b.
Proof. induction 1; cbn; intuition. Qed.
Lemma among_forall {A} (P : A -> Prop) (a b : list A) : among a b -> Forall P b -> Forall P a.
Proof. rewrite !Forall_forall. intros H Hf x Hx. apply Hf. eapply among_in; eauto. Qed.
Lemma among_sorted {A} (R : A -> A -> Prop) (a b : list A) : among a b -> StronglySorted R b -> StronglySorted R a.
Proof.
  induction 1 as [l|x a l Ha IH|x a l Ha IH]; intros Hs; [constructor|inversion Hs; auto|].
  inversion Hs; subst. constructor; auto. eapply among_forall; eauto.
Qed.

Ltac am := solve
  [ assumption | apply am_nil | apply am_take; am | apply among_app; am | apply am_skip; am | apply among_left; am
  | apply among_right; am ].

Lemma grammar_places :
  (forall l ts e, gexpr l ts e -> among (places_expr e) (map tk_pos ts)) /\
  (forall ts es, gexprs ts es -> among (flat_map places_expr es) (map tk_pos ts)) /\
  (forall ts items, gitems ts items -> among (flat_map (fun kv => places_expr (snd kv)) items) (map tk_pos ts)) /\
  (forall ts ps b, gfunction ts ps b -> among (places_block b) (map tk_pos ts)) /\
  (forall ts c t e, gcond ts c t e -> among (places_expr c ++ places_block t ++ places_block e) (map tk_pos ts)) /\
  (forall ts b, gelse ts b -> among (places_block b) (map tk_pos ts)) /\
  (forall ts s ends, gstatement ts s ends -> among (places_statement s) (map tk_pos ts)) /\
  (forall nested ts ss, gstatements nested ts ss -> among (flat_map places_statement ss) (map tk_pos ts)).
Proof.
  apply grammar_ind; intros; cbn [places_expr places_statement places_block flat_map fst snd];
    rewrite ?app_nil_r; repeat (rewrite map_app || cbn [map tk_pos app]); try am.
Qed.

Lemma program_places ts b : gprogram ts b -> among (places_block b) (map tk_pos ts).
Proof.
  induction 1 as [ts ss H|t1 ss t2 b H _ _ _ _ IH].
  - cbn [places_block]. eapply grammar_places, H.
  - rewrite map_app. now apply among_right.
Qed.

Lemma source_places src b les : analyze src = Analysis b les [] -> StronglySorted before (places_block b).
Proof.
  intros H.
  assert (E : exists r, parse_tokens (tokens_of (outputs (Lexer.lex src))) = Parsed b [] r).
  { unfold analyze in H. destruct (Lexer.lex src) as [os|os|]; [| |discriminate]; cbn [outputs];
      destruct (parse_tokens (tokens_of os)) as [b' es r|]; try discriminate;
      [|destruct r; [discriminate|]]; injection H as -> _ ->; eauto. }
  destruct E as (r & E). apply parse_tokens_sound, program_places in E.
  eapply among_sorted; [exact E|]. eapply placed_sorted, placed_outputs.
Qed.

(** ** Functions of a program *)

Lemma flat_map_map {A B C} (f : B -> list C) (g : A -> B) l : flat_map f (map g l) = flat_map (fun x => f (g x)) l.
Proof. induction l as [|x l IH]; [reflexivity|]. cbn. now rewrite IH. Qed.

Lemma addressed_places :
  (forall fn lp en e x ds, addr_expr fn lp en e x ds -> map wf_place (functions_expr x) = places_expr e) /\
  (forall fn lp en es xs ds, addr_exprs fn lp en es xs ds ->
     map wf_place (flat_map functions_expr xs) = flat_map places_expr es) /\
  (forall fn lp en s x ds en', addr_statement fn lp en s x ds en' ->
     map wf_place (functions_statement x) = places_statement s) /\
  (forall fn lp en ss xs ds, addr_statements fn lp en ss xs ds ->
     map wf_place (flat_map functions_statement xs) = flat_map places_statement ss) /\
  (forall fn lp en b xs ds, addr_block fn lp en b xs ds ->
     map wf_place (flat_map functions_statement xs) = places_block b).
Proof.
  apply addr_mut; intros;
    cbn [functions_expr functions_statement places_expr places_statement places_block flat_map map wf_place];
    rewrite ?map_app, ?app_nil_r;
    try (repeat match goal with H : map wf_place _ = _ |- _ => rewrite H end; reflexivity).
  - rewrite !flat_map_map in *. assumption.
  - rewrite <- app_assoc. congruence.
Qed.

Lemma functions_sorted src b les p : analyze src = Analysis b les [] -> sema b = SemaOk p ->
  StronglySorted before (map wf_place (functions p)).
Proof.
  intros H1 H2. destruct (text_accepted _ _ _ _ H1 H2) as [_ (ds & Ha & _)].
  unfold functions. rewrite (proj2 (proj2 (proj2 (proj2 addressed_places))) _ _ _ _ _ _ Ha).
  eapply source_places, H1.
Qed.

Lemma sorted_unique {A} (f : A -> pos) l x y : StronglySorted before (map f l) -> In x l -> In y l -> f x = f y -> x = y.
Proof.
  induction l as [|a l IH]; cbn [map In]; [contradiction|]. intros Hs. inversion Hs as [|? ? Hs' Hf]; subst.
  assert (G : forall z, In z l -> f a <> f z).
  { intros z Hz E. rewrite Forall_forall in Hf. specialize (Hf (f z) (in_map f _ _ Hz)). rewrite E in Hf.
    exact (before_irrefl _ Hf). }
  intros [<-|Hx] [<-|Hy] E; auto; [now apply G in E|now apply eq_sym, G in E].
Qed.

(** ** Equality of closures *)

Lemma all2_true {A} (eq : A -> A -> walk bool) a b :
  all2 eq a b = Known true <-> Forall2 (fun x y => eq x y = Known true) a b.
Proof.
  split.
  - revert b. induction a as [|x a IH]; intros [|y b]; try discriminate; [constructor|]. cbn.
    destruct (eq x y) as [[]| |] eqn:E; try discriminate. cbn. intros H. constructor; auto.
  - induction 1 as [|x y a b E _ IH]; [reflexivity|]. cbn. now rewrite E.
Qed.

Lemma forall2_weaken {A B} (P Q : A -> B -> Prop) a b : (forall x y, P x y -> Q x y) -> Forall2 P a b -> Forall2 Q a b.
Proof. intros H. induction 1; constructor; auto. Qed.

Lemma forall2_same_length {A B} (P : A -> B -> Prop) a b : Forall2 P a b -> length a = length b.
Proof. induction 1; cbn; auto. Qed.

Lemma closures_equal h n bits u u' np np' fi fi' body body' c c' p p' :
  eqv h (S n) bits (VFun (FHush u np fi body c p)) (VFun (FHush u' np' fi' body' c' p')) = Known true <->
  u = u' /\ sp_pos p = sp_pos p' /\
  Forall2 (fun x y => eqv h n bits (cell_get h (fst x)) (cell_get h (fst y)) = Known true /\ snd x = snd y) c c'.
Proof.
  cbn [eqv].
  assert (G : forall x y : loc * slot,
    wbind (eqv h n bits (cell_get h (fst x)) (cell_get h (fst y))) (fun e => Known (e && Nat.eqb (snd x) (snd y))) = Known true <->
    eqv h n bits (cell_get h (fst x)) (cell_get h (fst y)) = Known true /\ snd x = snd y).
  { intros x y. destruct (eqv h n bits (cell_get h (fst x)) (cell_get h (fst y))) as [[]| |]; cbn;
      try (split; [discriminate|intros [? _]; discriminate]).
    destruct (Nat.eqb_spec (snd x) (snd y)); split; try tauto; try discriminate. }
  assert (P : pos_eqb (sp_pos p) (sp_pos p') = true <-> sp_pos p = sp_pos p').
  { unfold pos_eqb. destruct (sp_pos p) as [l k], (sp_pos p') as [l' k']. cbn [line column].
    rewrite andb_true_iff, !N.eqb_eq. split; [intros [-> ->]; reflexivity|intros [= -> ->]; auto]. }
  split.
  - destruct (Nat.eqb u u' && pos_eqb (sp_pos p) (sp_pos p') && Nat.eqb (length c) (length c')) eqn:E; [|discriminate].
    apply andb_prop in E as [E _]. apply andb_prop in E as [E1 E2]. apply Nat.eqb_eq in E1. apply P in E2.
    intros H. apply all2_true in H. split; [exact E1|]. split; [exact E2|].
    eapply forall2_weaken; [|exact H]. intros x y Hxy. now apply G.
  - intros (-> & E & H). apply P in E. rewrite Nat.eqb_refl, E, (forall2_same_length _ _ _ H), Nat.eqb_refl. cbn [andb].
    apply all2_true. eapply forall2_weaken; [|exact H]. intros x y Hxy. now apply G.
Qed.

Lemma captured_length {W} l : forall (s : state W) r s1, capture_all l s = Val r s1 -> length r = length l.
Proof.
  induction l as [|k l IH]; intros s r s1 H; cbn [capture_all] in H; [now inversion H|].
  unfold bind in H. destruct (capture (cap_from k) s) as [x s2| | | |]; try discriminate.
  destruct (capture_all l s2) as [r2 s3| | | |] eqn:F; try discriminate. inversion H; subst.
  cbn [length]. now rewrite (IH _ _ _ F).
Qed.

Lemma closure_made {W} (X : ext W) (O : os W) n u np fi body p (s s' : state W) v :
  gives X O n u (XFunction np fi body p) s v s' ->
  exists ctx, v = VFun (FHush (u_number u) np fi body ctx (at_ u p)) /\ length ctx = length (fi_captures fi).
Proof.
  intros (q & obj & H). destruct n as [|n]; [discriminate|].
  change (ev_expr (interp X O (S n)) u (XFunction np fi body p) s) with
    (bind (W:=W) (bind (capture_all (fi_captures fi)) (fun context => ret (Reg (VFun (FHush (u_number u) np fi body context (at_ u p))))))
      (fun f => ret (f, at_ u p, VNil)) s) in H.
  unfold bind in H. destruct (capture_all (fi_captures fi) s) as [ctx s1| | | |] eqn:E; try discriminate.
  inversion H; subst. exists ctx. split; [reflexivity|]. eapply captured_length, E.
Qed.

Lemma equal_closures {W} (X : ext W) (O : os W) src b les pr : analyze src = Analysis b les [] -> sema b = SemaOk pr ->
  forall f g, In f (functions pr) -> In g (functions pr) ->
  forall n u u' s s1 v t t1 w h m,
  gives X O n u (expression_of f) s v s1 -> gives X O n u' (expression_of g) t w t1 ->
  eqv h m false v w = Known true ->
  f = g /\ u_number u = u_number u' /\ (fi_captures (wf_info f) = [] -> u_path u = u_path u' -> v = w).
Proof.
  intros H1 H2 f g Hf Hg n u u' s s1 v t t1 w h m Gv Gw E.
  apply closure_made in Gv as (c & -> & Lc), Gw as (c' & -> & Lc'). destruct m as [|m]; [discriminate|].
  apply closures_equal in E as (Eu & Ep & _). cbn [at_ sp_pos] in Ep.
  assert (f = g) as <- by (eapply sorted_unique; eauto; eapply functions_sorted; eauto).
  split; [reflexivity|]. split; [exact Eu|]. intros E0 Eq. rewrite E0 in Lc, Lc'.
  destruct c, c'; try discriminate. unfold at_. now rewrite Eu, Eq.
Qed.

Lemma ordered_closures {W} (X : ext W) (O : os W) src b les pr : analyze src = Analysis b les [] -> sema b = SemaOk pr ->
  forall f g, In f (functions pr) -> In g (functions pr) ->
  forall n u s s1 v t t1 w rank h m k,
  gives X O n u (expression_of f) s v s1 -> gives X O n u (expression_of g) t w t1 ->
  exists c, vcmp rank h (S m) k v w = Known c /\
    (c = Lt <-> before (wf_place f) (wf_place g)) /\ (c = Gt <-> before (wf_place g) (wf_place f)) /\ (c = Eq <-> f = g).
Proof.
  intros H1 H2 f g Hf Hg n u s s1 v t t1 w rank h m k Gv Gw.
  apply closure_made in Gv as (c & -> & _), Gw as (c' & -> & _). cbn [vcmp func_cmp spos_cmp at_ sp_path sp_pos].
  exists (spos_cmp rank (at_ u (wf_place f)) (at_ u (wf_place g))). split; [reflexivity|].
  unfold spos_cmp. cbn [at_ sp_path sp_pos]. rewrite N.compare_refl.
  assert (U : f = g <-> line (wf_place f) = line (wf_place g) /\ column (wf_place f) = column (wf_place g)).
  { split; [intros ->; auto|]. intros [E1 E2]. eapply sorted_unique; eauto; [eapply functions_sorted; eauto|].
    destruct (wf_place f), (wf_place g). cbn in E1, E2. now subst. }
  rewrite U. unfold before.
  destruct (N.compare_spec (line (wf_place f)) (line (wf_place g))) as [E|E|E].
  - destruct (N.compare_spec (column (wf_place f)) (column (wf_place g))) as [E'|E'|E'];
      repeat split; intros; try discriminate; try lia; auto.
  - repeat split; intros; try discriminate; try lia; auto.
  - repeat split; intros; try discriminate; try lia; auto.
Qed.

Lemma plain_alike {W} (X : ext W) (O : os W) src b les pr : analyze src = Analysis b les [] -> sema b = SemaOk pr ->
  forall f g, In f (functions pr) -> In g (functions pr) -> fi_captures (wf_info f) = [] ->
  forall n u s s1 v t t1 w h m,
  gives X O n u (expression_of f) s (VFun v) s1 -> gives X O n u (expression_of g) t (VFun w) t1 ->
  eqv h m false (VFun v) (VFun w) = Known true ->
  forall k obj start p z, ev_call (interp X O k) obj v start p z = ev_call (interp X O k) obj w start p z.
Proof.
  intros H1 H2 f g Hf Hg E0 n u s s1 v t t1 w h m Gv Gw E k obj start p z.
  destruct (equal_closures X O _ _ _ _ H1 H2 _ _ Hf Hg _ _ _ _ _ _ _ _ _ _ _ Gv Gw E) as (_ & _ & V).
  specialize (V E0 eq_refl). injection V as ->. reflexivity.
Qed.

Lemma order_blind : exists src b pr f n u s v s1 t w t1,
  analyze src = Analysis b [] [] /\ sema b = SemaOk pr /\ In f (functions pr) /\
  gives demo_ext demo_os n u (expression_of f) s v s1 /\ gives demo_ext demo_os n u (expression_of f) t w t1 /\
  st_heap t = st_heap s1 /\
  eqv (st_heap t1) 2 false v w = Known false /\
  forall m k, vcmp (fun _ => 0%N) (st_heap t1) (S m) k v w = Known Eq.
Proof.
  exists (bs "function mk(x) return function() return x end end"%string).
  eexists. eexists.
  exists (mkwritten 0 (mkframe_info 1 [mkcapture 0 0] None) [XReturn (XIdent 0 (mkpos 1 40))] (mkpos 1 22)).
  exists 1, (mkuinfo 0 (bs "main"%string)).
  exists (mkstate [Regular 0 (VInt 1)] [] (mkheap [VNil; VNil] [] [] []) [] 1 false []). eexists. eexists.
  exists (mkstate [Regular 1 (VInt 2)] [] (mkheap [VInt 1; VNil] [] [] []) [] 1 false []). eexists. eexists.
  split; [vm_compute; reflexivity|]. split; [vm_compute; reflexivity|]. split; [right; left; reflexivity|].
  split; [repeat eexists|]. split; [repeat eexists|]. cbn.
  split; [reflexivity|]. split; [reflexivity|]. intros. reflexivity.
Qed.

(** ** The order of all functions *)
Lemma bytes_cmp_opp a : forall b, bytes_cmp b a = CompOpp (bytes_cmp a b).
Proof.
  induction a as [|x a IH]; intros [|y b]; try reflexivity. cbn [bytes_cmp]. rewrite N.compare_antisym.
  destruct (Byte.to_N x ?= Byte.to_N y)%N; cbn; auto.
Qed.
Lemma bytes_cmp_le a : forall b c, bytes_cmp a b <> Gt -> bytes_cmp b c <> Gt ->
  bytes_cmp a c <> Gt /\ (bytes_cmp a c = Eq -> bytes_cmp a b = Eq /\ bytes_cmp b c = Eq).
Proof.
  induction a as [|x a IH]; intros [|y b] [|z c]; cbn [bytes_cmp]; try (intros; split; [congruence|intros; split; congruence]).
  destruct (N.compare_spec (Byte.to_N x) (Byte.to_N y)) as [E|E|E], (N.compare_spec (Byte.to_N y) (Byte.to_N z)) as [F|F|F]; try congruence;
    destruct (N.compare_spec (Byte.to_N x) (Byte.to_N z)) as [G|G|G]; try (exfalso; lia); intros H1 H2; try (split; [congruence|intros; split; congruence]).
  now apply IH.
Qed.
Lemma N_cmp_le a b c : (a ?= b)%N <> Gt -> (b ?= c)%N <> Gt -> (a ?= c)%N <> Gt /\ ((a ?= c)%N = Eq -> (a ?= b)%N = Eq /\ (b ?= c)%N = Eq).
Proof.
  destruct (N.compare_spec a b), (N.compare_spec b c), (N.compare_spec a c); try congruence; try (exfalso; lia); (intros; split; [congruence|intros; split; congruence]).
Qed.
Lemma spos_cmp_opp rank a b : spos_cmp rank b a = CompOpp (spos_cmp rank a b).
Proof.
  unfold spos_cmp. rewrite (N.compare_antisym (rank (sp_path a))), (N.compare_antisym (line (sp_pos a))), (N.compare_antisym (column (sp_pos a))).
  destruct (rank (sp_path a) ?= rank (sp_path b))%N; cbn; auto. destruct (line (sp_pos a) ?= line (sp_pos b))%N; cbn; auto.
Qed.
Lemma spos_cmp_le rank a b c : spos_cmp rank a b <> Gt -> spos_cmp rank b c <> Gt ->
  spos_cmp rank a c <> Gt /\ (spos_cmp rank a c = Eq -> spos_cmp rank a b = Eq /\ spos_cmp rank b c = Eq).
Proof.
  unfold spos_cmp.
  destruct (N.compare_spec (rank (sp_path a)) (rank (sp_path b))), (N.compare_spec (rank (sp_path b)) (rank (sp_path c)));
    try congruence; destruct (N.compare_spec (rank (sp_path a)) (rank (sp_path c))); try (exfalso; lia); try (intros; split; [congruence|intros; split; congruence]).
  destruct (N.compare_spec (line (sp_pos a)) (line (sp_pos b))), (N.compare_spec (line (sp_pos b)) (line (sp_pos c)));
    try congruence; destruct (N.compare_spec (line (sp_pos a)) (line (sp_pos c))); try (exfalso; lia); try (intros; split; [congruence|intros; split; congruence]).
  apply N_cmp_le.
Qed.
Lemma func_cmp_opp rank f g : func_cmp rank g f = CompOpp (func_cmp rank f g).
Proof. destruct f, g; cbn; auto using spos_cmp_opp, bytes_cmp_opp. Qed.
Lemma func_cmp_le rank f g i : func_cmp rank f g <> Gt -> func_cmp rank g i <> Gt ->
  func_cmp rank f i <> Gt /\ (func_cmp rank f i = Eq -> func_cmp rank f g = Eq /\ func_cmp rank g i = Eq).
Proof. destruct f, g, i; cbn; try (intros; split; [congruence|intros; split; congruence]); [apply spos_cmp_le|apply bytes_cmp_le]. Qed.
Lemma functions_ordered rank h m k f g i :
  exists c c1 c2, vcmp rank h (S m) k (VFun f) (VFun g) = Known c /\ vcmp rank h (S m) k (VFun g) (VFun f) = Known (CompOpp c) /\
    vcmp rank h (S m) k (VFun g) (VFun i) = Known c1 /\ vcmp rank h (S m) k (VFun f) (VFun i) = Known c2 /\
    (c <> Gt -> c1 <> Gt -> c2 <> Gt /\ (c2 = Eq -> c = Eq /\ c1 = Eq)).
Proof.
  exists (func_cmp rank f g), (func_cmp rank g i), (func_cmp rank f i). cbn [vcmp]. rewrite (func_cmp_opp rank f g). do 4 (split; [reflexivity|]). apply func_cmp_le.
Qed.
Lemma closures_first rank h m k unit params fi body context q g :
  vcmp rank h (S m) k (VFun (FHush unit params fi body context q)) (VFun (FRust g)) = Known Lt.
Proof. reflexivity. Qed.
Lemma bytes_cmp_eq a : forall b, bytes_cmp a b = Eq <-> a = b.
Proof.
  induction a as [|x a IH]; intros [|y b]; cbn [bytes_cmp]; try easy.
  destruct (N.compare_spec (Byte.to_N x) (Byte.to_N y)) as [E|E|E].
  - rewrite IH. assert (x = y) as -> by (apply (f_equal Byte.of_N) in E; rewrite !Byte.of_to_N in E; congruence). split; congruence.
  - split; [congruence|]. intros Q. injection Q as -> _. lia.
  - split; [congruence|]. intros Q. injection Q as -> _. lia.
Qed.
Lemma library_equal rank h m k a b :
  vcmp rank h (S m) k (VFun (FRust a)) (VFun (FRust b)) = Known Eq <-> eqv h (S m) false (VFun (FRust a)) (VFun (FRust b)) = Known true.
Proof.
  cbn [vcmp func_cmp eqv]. split; intros E; injection E as E.
  - apply bytes_cmp_eq in E. rewrite E. f_equal. now apply LexerProofs.bytes_eqb_eq.
  - apply LexerProofs.bytes_eqb_eq in E. rewrite E. f_equal. now apply bytes_cmp_eq.
Qed.
