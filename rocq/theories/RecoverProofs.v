(** Recovery: a faulty statement is reported once and costs that statement only. *)
From Coq Require Import Strings.String.
From Verif Require Import Base Lexer Ast Parser SpecLexer SpecParser SpecReport SpecFirst SpecRecover LexerProofs ParserSoundProofs ParserTermProofs FirstErrorProofs ParserCompleteProofs.
From Coq Require Import Lia.

(** [f] stops with an error, with [mid] left to read. *)
Definition fails {A} (f : P A) (full : list token) (e : perror) (y : strategy) (mid : list token) : Prop :=
  forall b es, f (st full b es) = PFuel \/ exists b', f (st full b es) = Er e y (st mid b' es).
(** [f] reports one error and goes on. *)
Definition heals {A} (f : P A) (full : list token) (a : A) (e : perror) (rest : list token) : Prop :=
  forall b es, f (st full b es) = PFuel \/ exists b' k, f (st full b es) = Ok a (st rest b' (es ++ [(k, e)])).
Definition forced (y : strategy) : strategy := match y with YKeep => YSkipOne | y => y end.

Lemma fails_here {A B} (m : P A) (k : A -> P B) full e y mid : fails m full e y mid -> fails (bind m k) full e y mid.
Proof. intros F b es. unfold bind. destruct (F b es) as [E|(b' & E)]; rewrite E; eauto. Qed.
Lemma fails_later {A B} (m : P A) (k : A -> P B) full a mid e y mid' : goes m full a mid -> fails (k a) mid e y mid' -> fails (bind m k) full e y mid'.
Proof. intros G F b es. unfold bind. destruct (G b es) as [E|(b' & E)]; rewrite E; [left; reflexivity|apply F]. Qed.
Lemma fails_token {A} (k : option token -> P A) full e y mid : fails (k (hd_error full)) full e y mid -> fails (with_token k) full e y mid.
Proof. intros H b es. apply H. Qed.
Lemma fails_fail {A} e y full : fails (@fail A e y) full e y full.
Proof. intros b es. right. eexists; reflexivity. Qed.
Lemma fails_fuel {A} full e y mid : fails (@out_of_fuel A) full e y mid.
Proof. intros b es. left; reflexivity. Qed.
Lemma fails_loops {A} (f : P A) full loop rest e y mid : loops f full loop rest -> (forall m, fails (loop m) rest e y mid) -> fails f full e y mid.
Proof. intros H Hl b es. destruct (H b es) as [E|(m & b' & E)]; [left; exact E|]. rewrite E. apply Hl. Qed.
Lemma fails_expect k y t r : tk_kind t <> k -> fails (expect_sync k y) (t :: r) (PUnexpected t (ExpTok k)) y (t :: r).
Proof.
  intros N b es. right. unfold expect_sync, with_sync, expect, eat, with_token. cbn. destruct (kind_eqb (tk_kind t) k) eqn:E; [|eexists; reflexivity].
  apply kind_eqb_eq in E. contradiction.
Qed.
Ltac norm := repeat (rewrite <- app_assoc || rewrite app_nil_r || (progress cbn [app])).
Ltac frest := eapply fails_later; [apply goes_step|].

Lemma heals_later {A B} (m : P A) (k : A -> P B) full a mid c e rest : heals m full a e mid -> goes (k a) mid c rest -> heals (bind m k) full c e rest.
Proof.
  intros H G b es. unfold bind. destruct (H b es) as [E|(b' & n & E)]; rewrite E; [left; reflexivity|].
  destruct (G b' (es ++ [(n, e)])) as [E'|(b'' & E')]; rewrite E'; eauto.
Qed.
Lemma heals_after {A B} (m : P A) (k : A -> P B) full a mid c e rest : goes m full a mid -> heals (k a) mid c e rest -> heals (bind m k) full c e rest.
Proof. intros G H b es. unfold bind. destruct (G b es) as [E|(b' & E)]; rewrite E; [left; reflexivity|apply H]. Qed.
Lemma heals_token {A} (k : option token -> P A) full a e rest : heals (k (hd_error full)) full a e rest -> heals (with_token k) full a e rest.
Proof. intros H b es. apply H. Qed.
Lemma heals_sync {A} (ill : A) m full e y t mid rest : fails m full e y (t :: mid) -> skip_tokens y (t :: mid) = rest -> heals (synchronize ill m) full ill e rest.
Proof.
  intros F S b es. unfold synchronize. destruct (F b es) as [E|(b' & E)]; rewrite E; [left; reflexivity|]. right.
  unfold sync, st. cbn [ps_token ps_rest ps_left ps_errors hd_error tl]. rewrite S. eexists _, _. reflexivity.
Qed.
Lemma fails_force {A} (m : P A) full e y mid : fails m full e y mid -> fails (force_sync_skip m) full e (forced y) mid.
Proof. intros F b es. unfold force_sync_skip. destruct (F b es) as [E|(b' & E)]; rewrite E; [left; reflexivity|]. right. destruct y; eexists; reflexivity. Qed.
Lemma heals_bind_sync {A B} (k : A -> P B) m full a e mid c rest : heals m full a e mid -> goes (k a) mid c rest -> heals (bind m k) full c e rest.
Proof. apply heals_later. Qed.

(** ** What is skipped *)
Lemma skip_junk f g t r : Forall (fun t => f (tk_kind t) = false) g -> f (tk_kind t) = true -> skip_until f (g ++ t :: r) = r.
Proof. intros F H. induction F as [|x g E _ IH]; cbn; [now rewrite H|]. now rewrite E. Qed.
Lemma skip_closer k g p r : simple_kind k = true -> lacks k g -> skip_tokens (YToken k) (g ++ tok k p :: r) = r.
Proof.
  intros S L. cbn. apply skip_junk; [|cbn; now apply kind_eqb_refl]. eapply Forall_impl; [|exact L]. cbn. intros t N.
  destruct (kind_eqb (tk_kind t) k) eqn:E; [|reflexivity]. apply kind_eqb_eq in E. contradiction.
Qed.
Lemma skip_end g p r : lacks (TKeyword KEnd) g -> skip_tokens (YKeyword KEnd) (g ++ kw KEnd p :: r) = r.
Proof.
  intros L. cbn. apply skip_junk; [|reflexivity]. eapply Forall_impl; [|exact L]. cbn. intros [k q] N. cbn in *.
  destruct k; try reflexivity. destruct k; try reflexivity. contradiction.
Qed.

(** ** Expressions *)
Lemma no_longer_stops t r l : l <= 9 -> no_longer t -> stops l (t :: r).
Proof.
  destruct t as [k p]. intros Hl [H|H]; cbn in *.
  - destruct k; cbn in *; auto; try discriminate. destruct o; cbn; auto; discriminate.
  - subst k. cbn. exact I.
Qed.
Lemma continues_longer t : continues [t] = false -> no_longer t.
Proof. left; assumption. Qed.
Definition gx l ts e (H : gexpr l ts e) : parses l ts e := proj1 grammar_parses l ts e H.
Lemma pe_goes ts e n rest : gexpr 9 ts e -> stops 9 rest -> goes (pe_ n) (ts ++ rest) e rest.
Proof. intros G. apply parses_pe, gx, G. Qed.

Lemma several_goes ts n m stop t r : several ts -> (stop = TCloseParens \/ stop = TCloseBracket) -> no_longer t -> tk_kind t <> TComma ->
  exists es, goes (comma_sep m EIllFormed (pe_ n) stop) (ts ++ t :: r) es (t :: r).
Proof.
  intros H Hs Ht Hc. revert m. unfold comma_sep.
  assert (Hk : kind_eqb (tk_kind t) TComma = false) by (destruct (kind_eqb (tk_kind t) TComma) eqn:E; [apply kind_eqb_eq in E; contradiction|reflexivity]).
  induction H as [ts e G|t1 e p t2 G H IH]; intros m.
  - exists [e]. destruct m; [apply goes_fuel|]. cbn [sep_by]. apply goes_with_token.
    destruct (starts_not_close ts stop (gexpr_starts _ _ _ G) Hs) as (x & r' & -> & Hx). cbn [app hd_error]. rewrite Hx.
    eapply goes_bind; [apply goes_synchronize; apply (pe_goes (x :: r')); [exact G|now apply no_longer_stops]|].
    apply goes_with_token. cbn [hd_error]. rewrite Hk. apply goes_ret.
  - destruct m; [exists []; apply goes_fuel|]. destruct (IH m) as [es E]. exists (e :: es). cbn [sep_by]. apply goes_with_token. rewrite <- app_assoc. cbn [app].
    destruct (starts_not_close t1 stop (gexpr_starts _ _ _ G) Hs) as (x & r' & -> & Hx). cbn [app hd_error]. rewrite Hx.
    eapply goes_bind; [apply goes_synchronize; apply (pe_goes (x :: r')); [exact G|exact I]|].
    apply goes_with_token. cbn [hd_error tk_kind kind_eqb]. gstep. eapply goes_bind; [exact E|apply goes_ret].
Qed.
Lemma several_items_goes ts n m t r : several_items ts -> no_longer t -> tk_kind t <> TComma ->
  exists es, goes (comma_sep m (ill_ident, EIllFormed) (parse_dict_item (pe_ n)) TCloseBracket) (ts ++ t :: r) es (t :: r).
Proof.
  intros H Ht Hc. revert m. unfold comma_sep.
  assert (Hk : kind_eqb (tk_kind t) TComma = false) by (destruct (kind_eqb (tk_kind t) TComma) eqn:E; [apply kind_eqb_eq in E; contradiction|reflexivity]).
  assert (Hi : forall s p q ts e rest, gexpr 9 ts e -> stops 9 rest ->
    goes (parse_dict_item (pe_ n)) (tok (TIdentifier s) p :: tok TColon q :: ts ++ rest) ((s, p), e) rest).
  { intros s p q ts0 e rest G S. unfold parse_dict_item. eapply goes_bind; [apply goes_synchronize, goes_with_sync, goes_identifier|].
    eapply goes_bind; [apply goes_expect_keep; reflexivity|]. eapply goes_bind; [apply pe_goes; eassumption|apply goes_ret]. }
  induction H as [s p q ts e G|s p q t1 e u t2 G H IH]; intros m.
  - exists [((s, p), e)]. destruct m; [apply goes_fuel|]. cbn [sep_by]. apply goes_with_token. cbn [app hd_error tk_kind kind_eqb].
    eapply goes_bind; [apply goes_synchronize, Hi; [exact G|now apply no_longer_stops]|].
    apply goes_with_token. cbn [hd_error]. rewrite Hk. apply goes_ret.
  - destruct m; [exists []; apply goes_fuel|]. destruct (IH m) as [es E]. exists (((s, p), e) :: es). cbn [sep_by]. apply goes_with_token. cbn [app]. rewrite <- app_assoc. cbn [app hd_error tk_kind kind_eqb].
    eapply goes_bind; [apply goes_synchronize, Hi; [exact G|exact I]|].
    apply goes_with_token. cbn [hd_error tk_kind kind_eqb]. gstep. eapply goes_bind; [exact E|apply goes_ret].
Qed.
Lemma returning_goes ts ss n t r : gstatements false ts ss -> ends_in_return ss -> continues [t] = false -> goes (pb_ n) (ts ++ t :: r) (BBlock ss) (t :: r).
Proof.
  intros G R C. destruct n as [|n]; [apply goes_fuel|]. unfold pb_. cbn [parse_block]. destruct grammar_parses as (_ & _ & _ & _ & _ & _ & _ & Hss).
  intros b es. apply (goes_bind _ (fun ss => ret (BBlock ss)) (ts ++ t :: r) ss (t :: r)); [|apply goes_ret].
  apply (Hss _ _ _ G); [discriminate|]. right; right. split; [exact R|]. destruct t; exact C.
Qed.
Lemma function_fails n o t1 ps q t2 ss t g r rest : gparams t1 ps -> gstatements false t2 ss -> ends_in_return ss -> continues [t] = false -> lacks (TKeyword KEnd) (t :: g) ->
  fails (parse_function n (pb_ n)) (tok TOpenParens o :: t1 ++ tok TCloseParens q :: t2 ++ t :: g ++ kw KEnd r :: rest)
    (PUnexpected t (ExpTok (TKeyword KEnd))) (YKeyword KEnd) (t :: g ++ kw KEnd r :: rest).
Proof.
  intros P G R C L. unfold parse_function. eapply fails_later with (a := true).
  - intros b es. destruct (goes_expect TOpenParens o (t1 ++ tok TCloseParens q :: t2 ++ t :: g ++ kw KEnd r :: rest) eq_refl b es) as [E|(b' & E)]; rewrite E; eauto.
  - eapply fails_later; [apply params_goes; eassumption|]. eapply fails_later; [apply goes_expect_keep; reflexivity|].
    eapply fails_later; [apply returning_goes; eassumption|]. apply fails_here, fails_expect. inversion L; assumption.
Qed.

(** A broken expression fails at the token, and what its error says to skip ends with it. *)
Definition breaks (l : nat) (ts : list token) (t : token) : Prop :=
  exists e y, subject e = Some t /\ forall rest, exists mid, skip_tokens (forced y) (t :: mid) = rest /\
  forall n, match l with
  | 0 => fails (parse_primary n (pe_ n) (pb_ n)) (ts ++ rest) e y (t :: mid)
  | 1 => fails (parse_postfix n (pe_ n) (pb_ n)) (ts ++ rest) e y (t :: mid)
  | 2 => forall m, fails (parse_prefix n (pe_ n) (pb_ n) m) (ts ++ rest) e y (t :: mid)
  | _ => fails (lvl n l) (ts ++ rest) e y (t :: mid)
  end.

Lemma prefix_falls n m ts t : broken 1 ts t -> forall rest e y mid,
  fails (parse_postfix n (pe_ n) (pb_ n)) (ts ++ rest) e y mid -> fails (parse_prefix n (pe_ n) (pb_ n) m) (ts ++ rest) e y mid.
Proof.
  intros H rest e y mid F. destruct m; [apply fails_fuel|]. cbn [parse_prefix]. apply fails_token.
  assert (N : forall o, is_prefix o = true -> hd_error (ts ++ rest) <> None -> forall p, hd_error (ts ++ rest) <> Some (tok (TOperator o) p)).
  { clear F. intros o O _ p E. revert E. assert (L : forall l, broken l ts t -> l <= 1 -> hd_error (ts ++ rest) <> Some (tok (TOperator o) p)).
    { clear H. intros l H. induction H; intros Hl E; try (cbn in E; discriminate); try lia.
      - cbn in E. injection E as ->. destruct o; discriminate.
      - destruct (gexpr_low_start _ _ _ H ltac:(lia)) as (k & p' & r & -> & Hk). cbn in E. injection E as E _. exact (Hk _ E).
      - destruct (gexpr_low_start _ _ _ H ltac:(lia)) as (k & p' & r & -> & Hk). cbn in E. injection E as E _. exact (Hk _ E).
      - apply IHbroken; [lia|exact E].
      - destruct o0; cbn in H; try discriminate; injection H as <- _; lia. }
    apply (L 1 H). lia. }
  destruct (hd_error (ts ++ rest)) as [[k p]|]; [|exact F]. destruct k; try exact F. destruct (is_prefix o) eqn:O; [|exact F].
  exfalso. exact (N o O ltac:(discriminate) p eq_refl).
Qed.


(** The error is that a closing token is missing. *)
Ltac missing k y q g := eexists (PUnexpected _ (ExpTok k)), y; split; [reflexivity|]; intros rest; exists (g ++ tok k q :: rest); split;
  [first [apply (skip_closer k (_ :: g)); [reflexivity|assumption] | apply (skip_end (_ :: g)); assumption]|intros n; norm].
Ltac not_closed := apply fails_here, fails_expect; match goal with L : lacks _ _ |- _ => inversion L; assumption end.
Lemma broken_breaks l ts t : broken l ts t -> breaks l ts t.
Proof.
  induction 1.
  - (* nothing that is an operand *)
    exists (unexpected_msg t "expression"), YKeep. split; [reflexivity|]. intros rest. exists rest. split; [reflexivity|]. intros n.
    unfold parse_primary. apply fails_token. cbn [app hd_error]. destruct t as [k p]. cbn in H.
    destruct k; try discriminate; try apply fails_fail. destruct k; try discriminate; apply fails_fail.
  - missing TCloseParens (YToken TCloseParens) q g. unfold parse_primary. apply fails_token. cbn [hd_error]. frest.
    eapply fails_later; [apply goes_synchronize, pe_goes; [eassumption|now apply no_longer_stops]|]. not_closed.
  - missing TCloseBracket (YToken TCloseBracket) q g. unfold parse_primary. apply fails_token. cbn [hd_error]. frest.
    destruct (several_goes t1 n n TCloseBracket t (g ++ tok TCloseBracket q :: rest) H ltac:(auto) H0 H1) as [es E].
    eapply fails_later; [exact E|]. not_closed.
  - missing TCloseBracket (YToken TCloseBracket) q g. unfold parse_primary. apply fails_token. cbn [hd_error]. frest.
    destruct (several_items_goes t1 n n t (g ++ tok TCloseBracket q :: rest) H H0 H1) as [es E].
    eapply fails_later; [exact E|]. not_closed.
  - missing (TKeyword KEnd) (YKeyword KEnd) r g. unfold parse_primary. apply fails_token. cbn [hd_error]. frest.
    apply fails_here. eapply function_fails; eassumption.
  - missing TCloseParens (YToken TCloseParens) q g. pose proof (gx _ _ _ H n (tok TOpenParens p :: t2 ++ t :: g ++ tok TCloseParens q :: rest) ltac:(cbn; lia)) as L. cbn iota in L.
    eapply fails_loops; [exact L|]. intros m. destruct m; [apply fails_fuel|]. cbn [postfix_loop]. apply fails_token. cbn [hd_error]. frest.
    destruct (several_goes t2 n n TCloseParens t (g ++ tok TCloseParens q :: rest) H0 ltac:(auto) H1 H2) as [es E].
    eapply fails_later; [exact E|]. not_closed.
  - missing TCloseBracket (YToken TCloseBracket) q g. pose proof (gx _ _ _ H n (tok TOpenBracket p :: t2 ++ t :: g ++ tok TCloseBracket q :: rest) ltac:(cbn; lia)) as L. cbn iota in L.
    eapply fails_loops; [exact L|]. intros m. destruct m; [apply fails_fuel|]. cbn [postfix_loop]. apply fails_token. cbn [hd_error]. frest.
    eapply fails_later; [apply goes_synchronize, pe_goes; [eassumption|now apply no_longer_stops]|]. not_closed.
  - destruct IHbroken as (e & y & Sb & B). exists e, y. split; [exact Sb|]. intros rest. destruct (B rest) as (mid & K & F). exists mid. split; [exact K|]. intros n. specialize (F n).
    destruct l as [|[|[|l]]].
    + unfold parse_postfix. apply fails_here. exact F.
    + intros m. eapply prefix_falls; eassumption.
    + cbn [lvl]. apply fails_here. apply F.
    + change (lvl n (S (S (S (S l))))) with (parse_binop n (lvl n (S (S (S l)))) (check_at (S (S (S (S l)))))). apply fails_here. exact F.
  - destruct IHbroken as (e & y & Sb & B). exists e, y. split; [exact Sb|]. intros rest. destruct (B rest) as (mid & K & F). exists mid. split; [exact K|]. intros n m.
    destruct m; [apply fails_fuel|]. cbn [parse_prefix app]. apply fails_token. cbn [hd_error]. replace (is_prefix o) with true by (destruct o; try discriminate; reflexivity).
    frest. apply fails_here. apply F.
  - destruct IHbroken as (e & y & Sb & B). exists e, y. split; [exact Sb|]. intros rest. destruct (B rest) as (mid & K & F). exists mid. split; [exact K|]. intros n. specialize (F n).
    assert (Hl : 2 <= l /\ l < 9) by (destruct o; cbn in H; try discriminate; injection H as <- _; lia). destruct Hl as [Hl Hl9].
    pose proof (gx _ _ _ H0 n (tok (TOperator o) p :: t2 ++ rest)) as L. cbn [pred] in L.
    specialize (L ltac:(destruct o; cbn in *; try discriminate; injection H as <- _; lia)).
    destruct l as [|[|l]]; [lia|lia|]. norm. eapply fails_loops; [exact L|]. intros m. destruct m; [apply fails_fuel|]. cbn [binop_loop]. apply fails_token. cbn [hd_error].
    destruct (check_at_spec _ _ _ H Hl) as [-> _]. frest. apply fails_here. destruct l; [apply F|exact F].
Qed.
Lemma broken_pe ts t : broken 9 ts t -> exists e y, subject e = Some t /\ forall rest, exists mid, skip_tokens (forced y) (t :: mid) = rest /\
  forall n, fails (pe_ n) (ts ++ rest) e y (t :: mid).
Proof.
  intros H. destruct (broken_breaks _ _ _ H) as (e & y & Sb & B). exists e, y. split; [exact Sb|]. intros rest. destruct (B rest) as (mid & K & F). exists mid. split; [exact K|].
  intros [|n]; [apply fails_fuel|]. intros b es. unfold pe_. rewrite parse_expression_lvl. apply F.
Qed.
Lemma broken_starts l ts t : broken l ts t -> (exists t0, ts = [t0] /\ no_expression (tk_kind t0) = true) \/ starts_expr ts.
Proof.
  induction 1; auto.
  - left. eauto.
  - right. exact I.
  - right. exact I.
  - right. exact I.
  - right. cbn. eauto.
  - right. apply starts_app. eapply gexpr_starts; eassumption.
  - right. apply starts_app. eapply gexpr_starts; eassumption.
  - right. destruct o; try discriminate; exact I.
  - right. apply starts_app. eapply gexpr_starts; eassumption.
Qed.
(** A statement that is no other kind is an expression. *)
Lemma expression_fails n t0 ts e y mid :
  of_statement t0 = false -> (ts = [] /\ no_expression (tk_kind t0) = true \/ exists r, ts = r /\ starts_expr (t0 :: ts)) -> forall rest,
  fails (pe_ n) ((t0 :: ts) ++ rest) e y mid -> fails (parse_statement n (pe_ n) (pb_ n)) ((t0 :: ts) ++ rest) e y mid.
Proof.
  intros O S rest F. unfold parse_statement. apply fails_token. destruct t0 as [k p]. cbn [app hd_error]. unfold of_statement in O. cbn [tk_kind] in *.
  destruct k; try (apply fails_here; exact F). destruct k; try discriminate; try (apply fails_here; exact F).
  destruct S as [[_ S]|(r & _ & S)]; [discriminate|]. cbn in S. destruct S as (q & r' & ->).
  eapply fails_later; [apply goes_peek|]. cbn [app hd_error]. apply fails_here. exact F.
Qed.

(** ** Statements and the source *)
Definition shapes t0 ts := ts = [] /\ no_expression (tk_kind t0) = true \/ exists r : list token, ts = r /\ starts_expr (t0 :: ts).
Lemma broken_shapes l t0 ts t : broken l (t0 :: ts) t -> shapes t0 ts.
Proof. intros H. destruct (broken_starts _ _ _ H) as [(x & E & N)|S]; [left; injection E as -> ->; auto|right; eauto]. Qed.
Definition fault (ts : list token) (t : token) : Prop :=
  exists e y, subject e = Some t /\ forall rest, exists mid, skip_tokens (forced y) (t :: mid) = rest /\
  forall n, fails (parse_statement n (pe_ n) (pb_ n)) (ts ++ rest) e y (t :: mid).
Lemma faulty_fault ts t : faulty ts t -> fault ts t.
Proof.
  destruct 1.
  - destruct (broken_pe _ _ H0) as (e & y & Sb & B). exists e, y. split; [exact Sb|]. intros rest. destruct (B rest) as (mid & K & F). exists mid. split; [exact K|]. intros n.
    apply expression_fails; [exact H|eapply broken_shapes; exact H0|apply F].
  - destruct (broken_pe _ _ H0) as (e' & y & Sb & B). exists e', y. split; [exact Sb|]. intros rest. destruct (B rest) as (mid & K & F). exists mid. split; [exact K|]. intros n.
    pose proof (gexpr_starts _ _ _ H) as St.
    assert (X : fails (e0 <- pe_ n ;;
          with_token (fun t =>
            match t with
            | Some (mktoken (TOperator OAssign) p) =>
              _ <- step ;; r <- pe_ n ;; ret (SAssign e0 r p)
            | _ => ret (SExpr e0)
            end)) ((t1 ++ tok (TOperator OAssign) p :: t2) ++ rest) e' y (t :: mid)).
    { norm. eapply fails_later; [apply pe_goes; [exact H|exact I]|]. apply fails_token. cbn [hd_error]. frest. apply fails_here. apply F. }
    unfold parse_statement. apply fails_token. destruct t1 as [|[k q] t1]; [destruct St|]. cbn [app hd_error]. cbn in St.
    destruct k; try exact X; try (destruct St; fail). destruct k; try exact X; try (destruct St; fail).
    destruct St as (o & r & ->). eapply fails_later; [apply goes_peek|]. cbn [app hd_error]. exact X.
  - destruct (broken_pe _ _ H) as (e' & y & Sb & B). exists e', y. split; [exact Sb|]. intros rest. destruct (B rest) as (mid & K & F). exists mid. split; [exact K|]. intros n.
    unfold parse_statement. apply fails_token. cbn [app hd_error]. frest. eapply fails_later; [apply goes_synchronize, goes_identifier|]. cbv iota beta.
    apply fails_here, fails_token. cbn [hd_error]. frest. apply F.
  - destruct (broken_pe _ _ H0) as (e' & y & Sb & B). exists e', y. split; [exact Sb|]. intros rest. destruct (B rest) as (mid & K & F). exists mid. split; [exact K|]. intros n.
    unfold parse_statement. apply fails_token. cbn [app hd_error]. frest. apply fails_here, fails_token. cbn [hd_error].
    replace (is_block_terminator (tk_kind t0)) with false by (unfold ends_block in H; destruct (tk_kind t0); try reflexivity; destruct k; try reflexivity; discriminate). apply F.
  - missing (TKeyword KEnd) (YKeyword KEnd) r g. unfold parse_statement. apply fails_token. cbn [hd_error]. eapply fails_later; [apply goes_peek|]. cbn [hd_error]. frest.
    eapply fails_later; [apply goes_identifier|]. cbv iota beta. apply fails_here. eapply function_fails; eassumption.
  - missing (TKeyword KEnd) (YKeyword KEnd) r g. unfold parse_statement. apply fails_token. cbn [hd_error]. frest.
    eapply fails_later; [apply goes_synchronize, pe_goes; [eassumption|exact I]|]. eapply fails_later; [apply goes_expect_keep; reflexivity|].
    eapply fails_later; [apply returning_goes; eassumption|]. not_closed.
  - missing (TKeyword KEnd) (YKeyword KEnd) r g. unfold parse_statement. apply fails_token. cbn [hd_error]. frest.
    eapply fails_later; [apply goes_synchronize, goes_identifier|]. cbv iota beta. eapply fails_later; [apply goes_expect_keep; reflexivity|].
    eapply fails_later; [apply goes_synchronize, pe_goes; [eassumption|exact I]|]. eapply fails_later; [apply goes_expect_keep; reflexivity|].
    eapply fails_later; [apply returning_goes; eassumption|]. not_closed.
Qed.
Lemma faulty_not_term ts t : faulty ts t -> exists t0 r, ts = t0 :: r /\ is_block_terminator (tk_kind t0) = false.
Proof.
  destruct 1; try (eexists _, _; split; [reflexivity|reflexivity]).
  - eexists _, _; split; [reflexivity|]. unfold of_statement in H. destruct (tk_kind t0); try reflexivity. destruct k; try reflexivity; discriminate.
  - destruct (starts_not_term _ (gexpr_starts _ _ _ H)) as (x & r & -> & N). cbn [app]. eauto.
Qed.
Lemma bad_block_heals ts p t : bad_block ts p t -> exists e, subject e = Some t /\ forall n rest, heals (synchronize ill_command_block (parse_command_block n)) (ts ++ rest) ill_command_block e rest.
Proof.
  assert (Ho : forall k kind p r, opens k = Some kind -> goes (with_sync YSkipOne (eat (fun t =>
            match block_kind_of (tk_kind t) with
            | Some k => inl k
            | None => inr (unexpected_msg t "command block")
            end))) (tok k p :: r) kind r).
  { intros k kind q r E. apply goes_with_sync, goes_eat. change block_kind_of with opens. cbn [tk_kind]. rewrite E. reflexivity. }
  destruct 1.
  - exists (PEmptyCommandBlock q). split; [reflexivity|]. intros n rest. cbn [app]. eapply heals_sync with (y := YSkipOne) (mid := rest); [|reflexivity].
    unfold parse_command_block. eapply fails_later; [apply Ho; exact H|]. apply fails_token. cbn [hd_error]. apply fails_fail.
  - exists (PUnexpected t (ExpTok TCloseCommand)). split; [reflexivity|]. intros n rest. norm.
    eapply heals_sync with (y := YToken TCloseCommand) (mid := g ++ tok TCloseCommand q :: rest); [|apply (skip_closer TCloseCommand (t :: g)); auto].
    unfold parse_command_block. eapply fails_later; [apply Ho; exact H|]. apply fails_token. cbn [hd_error].
    assert (B : goes (parse_basic_command n) (tok (TArgument ps) r :: tok (TCmdOperator CTry) u :: t :: g ++ tok TCloseCommand q :: rest)
                  (mkbasic (argument_of ps r) [] [] [] false r) (t :: g ++ tok TCloseCommand q :: rest)).
    { unfold parse_basic_command. eapply goes_bind; [apply (env_goes [] [] n (tok (TArgument ps) r :: tok (TCmdOperator CTry) u :: t :: g ++ tok TCloseCommand q :: rest)); [constructor|]|].
      - cbn. eauto.
      - eapply goes_bind; [apply goes_with_sync, goes_argument|].
        eapply goes_bind; [apply (arguments_goes n [] []); [constructor|]|].
        + eexists _, _, _. split; [reflexivity|]. left. discriminate.
        + eapply goes_bind with (a := ([], false)); [apply goes_with_sync|apply goes_ret].
          destruct n; [apply goes_fuel|]. cbn [parse_operators]. apply goes_with_token. cbn [hd_error tk_kind is_basic_command_terminator]. gstep. apply goes_ret. }
    eapply fails_later with (mid := t :: g ++ tok TCloseCommand q :: rest).
    + unfold parse_command. eapply goes_bind; [apply goes_synchronize, B|]. eapply goes_bind with (a := []); [|apply goes_ret].
      destruct n; [apply goes_fuel|]. cbn [parse_pipe]. apply goes_with_token. cbn [hd_error]. destruct t as [k' p']. cbn in H1. destruct k'; try apply goes_ret. congruence.
    + eapply fails_later with (a := []); [apply goes_with_token; cbn [hd_error]; destruct t as [k' p']; cbn in H2; destruct k'; try apply goes_ret; congruence|].
      apply fails_here. apply (fails_expect TCloseCommand). inversion H3; assumption.
Qed.
Lemma bad_block_statement ts p t rest : bad_block ts p t -> continues rest = false ->
  exists e, subject e = Some t /\ forall n, heals (parse_statement n (pe_ n) (pb_ n)) (ts ++ rest) (SExpr (ECommand ill_command_block p)) e rest.
Proof.
  intros H C. destruct (bad_block_heals _ _ _ H) as (e & Sb & B). exists e. split; [exact Sb|]. intros n.
  assert (S9 : stops 9 rest) by (apply continues_stops; exact C).
  assert (Hp : forall n, heals (parse_primary n (pe_ n) (pb_ n)) (ts ++ rest) (ECommand ill_command_block p) e rest).
  { intros n'. unfold parse_primary. apply heals_token. specialize (B n' rest).
    destruct H; cbn [app hd_error] in *; destruct k; try discriminate; (eapply heals_later; [exact B|apply goes_ret]). }
  assert (Hf : forall n, heals (parse_postfix n (pe_ n) (pb_ n)) (ts ++ rest) (ECommand ill_command_block p) e rest).
  { intros n'. unfold parse_postfix. eapply heals_later; [apply Hp|]. apply postfix_stop. eapply stops_le; [|exact S9]. lia. }
  assert (Hx : forall n m, heals (parse_prefix n (pe_ n) (pb_ n) m) (ts ++ rest) (ECommand ill_command_block p) e rest).
  { intros n' m. destruct m; [intros b es; left; reflexivity|]. cbn [parse_prefix]. apply heals_token.
    destruct H; cbn [app hd_error] in *; destruct k; try discriminate; apply Hf. }
  assert (Hl : forall n l, l <= 7 -> heals (lvl n (S (S l))) (ts ++ rest) (ECommand ill_command_block p) e rest).
  { intros n' l. induction l as [|l IH]; intros L; [apply Hx|].
    change (lvl n' (S (S (S l)))) with (parse_binop n' (lvl n' (S (S l))) (check_at (S (S (S l))))). unfold parse_binop.
    eapply heals_later; [apply IH; lia|]. apply (binop_stop (S (S l))); [lia|lia|]. eapply stops_le; [|exact S9]. lia. }
  assert (He : heals (pe_ n) (ts ++ rest) (ECommand ill_command_block p) e rest).
  { destruct n; [intros b es; left; reflexivity|]. intros b es. unfold pe_. rewrite parse_expression_lvl. apply (Hl n 7). lia. }
  assert (Hs : heals (e <- pe_ n ;;
          with_token (fun t =>
            match t with
            | Some (mktoken (TOperator OAssign) p) =>
              _ <- step ;; r <- pe_ n ;; ret (SAssign e r p)
            | _ => ret (SExpr e)
            end)) (ts ++ rest) (SExpr (ECommand ill_command_block p)) e rest).
  { eapply heals_later; [exact He|]. apply goes_with_token. destruct rest as [|[k q] rest]; cbn [hd_error]; [apply goes_ret|].
    destruct k; try apply goes_ret. destruct o; try apply goes_ret. discriminate. }
  unfold parse_statement. apply heals_token. destruct H; cbn [app hd_error] in *; destruct k; try discriminate; exact Hs.
Qed.
Lemma heals_synchronize {A} (ill : A) m full a e rest : heals m full a e rest -> heals (synchronize ill m) full a e rest.
Proof. intros H b es. unfold synchronize. destruct (H b es) as [E|(b' & k & E)]; rewrite E; eauto. Qed.
Lemma heals_force {A} (m : P A) full a e rest : heals m full a e rest -> heals (force_sync_skip m) full a e rest.
Proof. intros H b es. unfold force_sync_skip. destruct (H b es) as [E|(b' & k & E)]; rewrite E; eauto. Qed.

(** Reads up to [rest], reporting these errors. *)
Definition reports {A} (f : P A) (full : list token) (a : A) (fs : list token) (rest : list token) : Prop :=
  forall b es, f (st full b es) = PFuel \/ exists b' es', f (st full b es) = Ok a (st rest b' (es ++ es')) /\ map (fun x => subject (snd x)) es' = map Some fs.
Lemma reports_goes {A B} (m : P A) (k : A -> P B) full a mid c fs rest : goes m full a mid -> reports (k a) mid c fs rest -> reports (bind m k) full c fs rest.
Proof. intros G R b es. unfold bind. destruct (G b es) as [E|(b' & E)]; rewrite E; [left; reflexivity|apply R]. Qed.
Lemma reports_heals {A B} (m : P A) (k : A -> P B) full a mid c e t fs rest : heals m full a e mid -> subject e = Some t -> reports (k a) mid c fs rest -> reports (bind m k) full c (t :: fs) rest.
Proof.
  intros G Sb R b es. unfold bind. destruct (G b es) as [E|(b' & i & E)]; rewrite E; [left; reflexivity|].
  destruct (R b' (es ++ [(i, e)])) as [E'|(b'' & es' & E' & M)]; rewrite E'; [left; reflexivity|]. right. exists b'', ((i, e) :: es').
  rewrite <- app_assoc. split; [reflexivity|]. cbn. now rewrite Sb, M.
Qed.
Lemma reports_then {A B} (m : P A) (k : A -> P B) full a c fs mid rest : reports m full a fs mid -> goes (k a) mid c rest -> reports (bind m k) full c fs rest.
Proof.
  intros R G b es. unfold bind. destruct (R b es) as [E|(b' & es' & E & M)]; rewrite E; [left; reflexivity|].
  destruct (G b' (es ++ es')) as [E'|(b'' & E')]; rewrite E'; eauto.
Qed.
Lemma reports_both {A B} (m : P A) (k : A -> P B) full a c fs gs mid rest : reports m full a fs mid -> reports (k a) mid c gs rest -> reports (bind m k) full c (fs ++ gs) rest.
Proof.
  intros R G b es. unfold bind. destruct (R b es) as [E|(b' & es' & E & M)]; rewrite E; [left; reflexivity|].
  destruct (G b' (es ++ es')) as [E'|(b'' & es'' & E' & M')]; rewrite E'; [left; reflexivity|]. right. exists b'', (es' ++ es'').
  rewrite <- app_assoc. split; [reflexivity|]. now rewrite !map_app, M, M'.
Qed.
Lemma reports_token {A} (k : option token -> P A) full a fs rest : reports (k (hd_error full)) full a fs rest -> reports (with_token k) full a fs rest.
Proof. intros H b es. apply H. Qed.
Lemma reports_fuel {A} full (a : A) fs rest : reports out_of_fuel full a fs rest.
Proof. intros b es. left; reflexivity. Qed.
Lemma reports_none {A} (m : P A) full a rest : goes m full a rest -> reports m full a [] rest.
Proof. intros G b es. destruct (G b es) as [E|(b' & E)]; rewrite E; [left; reflexivity|]. right. exists b', []. rewrite app_nil_r. auto. Qed.
Lemma reports_synchronize {A} (ill : A) m full a fs rest : reports m full a fs rest -> reports (synchronize ill m) full a fs rest.
Proof. intros H b es. unfold synchronize. destruct (H b es) as [E|(b' & es' & E & M)]; rewrite E; eauto. Qed.
Lemma reports_force {A} (m : P A) full a fs rest : reports m full a fs rest -> reports (force_sync_skip m) full a fs rest.
Proof. intros H b es. unfold force_sync_skip. destruct (H b es) as [E|(b' & es' & E & M)]; rewrite E; eauto. Qed.
Ltac rrest := eapply reports_goes; [apply goes_step|].

(** A condition with mistakes in its blocks is a statement. *)
Lemma condition_statement p ts e fs rest n : continues rest = false ->
  (forall n, reports (parse_primary n (pe_ n) (pb_ n)) (kw KIf p :: ts) e fs rest) ->
  reports (parse_statement n (pe_ n) (pb_ n)) (kw KIf p :: ts) (SExpr e) fs rest.
Proof.
  intros C Hp. assert (S9 : stops 9 rest) by (apply continues_stops; exact C).
  assert (Hf : forall n, reports (parse_postfix n (pe_ n) (pb_ n)) (kw KIf p :: ts) e fs rest).
  { intros n'. unfold parse_postfix. eapply reports_then; [apply Hp|]. apply postfix_stop. eapply stops_le; [|exact S9]. lia. }
  assert (Hx : forall n m, reports (parse_prefix n (pe_ n) (pb_ n) m) (kw KIf p :: ts) e fs rest).
  { intros n' m. destruct m; [apply reports_fuel|]. cbn [parse_prefix]. apply reports_token. cbn [hd_error]. apply Hf. }
  assert (Hl : forall n l, l <= 7 -> reports (lvl n (S (S l))) (kw KIf p :: ts) e fs rest).
  { intros n' l. induction l as [|l IH]; intros L; [apply Hx|].
    change (lvl n' (S (S (S l)))) with (parse_binop n' (lvl n' (S (S l))) (check_at (S (S (S l))))). unfold parse_binop.
    eapply reports_then; [apply IH; lia|]. apply (binop_stop (S (S l))); [lia|lia|]. eapply stops_le; [|exact S9]. lia. }
  assert (He : reports (pe_ n) (kw KIf p :: ts) e fs rest).
  { destruct n; [apply reports_fuel|]. intros b es. unfold pe_. rewrite parse_expression_lvl. apply (Hl n 7). lia. }
  unfold parse_statement. apply reports_token. cbn [hd_error].
  eapply reports_then; [exact He|]. apply goes_with_token. destruct rest as [|[k q] rest]; cbn [hd_error]; [apply goes_ret|].
  destruct k; try apply goes_ret. destruct o; try apply goes_ret. discriminate.
Qed.

Scheme mended_rec := Minimality for mended Sort Prop
with mended_cond_rec := Minimality for mended_cond Sort Prop
with mended_else_rec := Minimality for mended_else Sort Prop.
Combined Scheme mended_mutual from mended_rec, mended_cond_rec, mended_else_rec.

Definition follows (nested : bool) (rest : list token) : Prop := if nested then terminated rest = true else rest = [].
Definition block_reports (nested : bool) (ts : list token) (ss : list statement) (fs : list token) : Prop :=
  forall n m rest, follows nested rest -> reports (block_loop n (pe_ n) (pb_ n) m) (ts ++ rest) ss fs rest.
Definition cond_reports (ts : list token) (c : expr) (a e : block) (fs : list token) : Prop :=
  forall n m q r, reports (parse_condblock (pe_ n) (pb_ n) m) (ts ++ kw KEnd q :: r) (c, a, e) fs (kw KEnd q :: r).
Definition else_reports (ts : list token) (e : block) (fs : list token) : Prop :=
  terminated (ts ++ [kw KEnd ill_pos]) = true /\
  forall n m q r,
  reports (with_token (fun t =>
        match t with
        | Some (mktoken (TKeyword KEnd) _) => ret (BBlock [])
        | Some (mktoken (TKeyword KElseIf) p) =>
          _ <- step ;;
          '(c, t, e) <- parse_condblock (pe_ n) (pb_ n) m ;;
          ret (BBlock [SExpr (EIf c t e p)])
        | Some (mktoken (TKeyword KElse) _) => _ <- step ;; pb_ n
        | Some t => _ <- take_token ;; fail (unexpected_msg t "end, else or elseif") YBlockTerminator
        | None => fail PUnexpectedEof YKeep
        end)) (ts ++ kw KEnd q :: r) e fs (kw KEnd q :: r).

Lemma follows_continues nested rest : follows nested rest -> continues rest = false /\ (forall p r, rest <> tok (TOperator OAssign) p :: r).
Proof. destruct nested; cbn; intros H; [apply terminated_continues in H; exact H|subst; split; [reflexivity|discriminate]]. Qed.
Lemma before_continues nested t2 rest : follows nested rest -> continues t2 = false -> continues (t2 ++ rest) = false.
Proof. intros F C. destruct t2 as [|[k p] t2]; [apply (follows_continues _ _ F)|exact C]. Qed.
Lemma before_assign nested t2 rest : follows nested rest -> (forall p r, t2 <> tok (TOperator OAssign) p :: r) -> forall p r, t2 ++ rest <> tok (TOperator OAssign) p :: r.
Proof. intros F C p r. destruct t2 as [|x t2]; [apply (follows_continues _ _ F)|]. cbn. intros E. injection E as -> _. exact (C _ _ eq_refl). Qed.
Lemma reports_pb ts ss fs n rest : block_reports true ts ss fs -> terminated rest = true -> reports (pb_ n) (ts ++ rest) (BBlock ss) fs rest.
Proof.
  intros H T. destruct n as [|n]; [apply reports_fuel|]. unfold pb_. cbn [parse_block]. intros b es.
  apply (reports_then (block_loop n (pe_ n) (pb_ n) n) (fun ss => ret (BBlock ss)) (ts ++ rest) ss _ fs rest rest); [apply H; exact T|apply goes_ret].
Qed.
(** One statement that reports, and the rest *)
Lemma loop_statement nested full s fs t2 ss gs :
  (exists t0 r, full = t0 :: r /\ is_block_terminator (tk_kind t0) = false) -> match s with SReturn _ _ => False | _ => True end ->
  (forall n rest, follows nested rest -> reports (synchronize SIllFormed (force_sync_skip (parse_statement n (pe_ n) (pb_ n)))) (full ++ rest) s fs (t2 ++ rest)) ->
  block_reports nested t2 ss gs -> block_reports nested full (s :: ss) (fs ++ gs).
Proof.
  intros (t0 & r & Et & Ht) Hret H IH n m rest Fo. destruct m; [apply reports_fuel|]. cbn [block_loop]. apply reports_token.
  rewrite Et at 1. cbn [app hd_error]. rewrite Ht. eapply reports_both; [apply H, Fo|].
  assert (Hd : reports (rest <- block_loop n (pe_ n) (pb_ n) m ;; ret (s :: rest)) (t2 ++ rest) (s :: ss) gs rest) by (eapply reports_then; [apply IH, Fo|apply goes_ret]).
  destruct s; try exact Hd. destruct Hret.
Qed.
Lemma heals_reports {A} (m : P A) full a e t rest : heals m full a e rest -> subject e = Some t -> reports m full a [t] rest.
Proof. intros H S b es. destruct (H b es) as [E|(b' & k & E)]; rewrite E; [left; reflexivity|]. right. exists b', [(k, e)]. cbn. rewrite S. auto. Qed.

Lemma mended_reports :
  (forall nested ts ss fs, mended nested ts ss fs -> block_reports nested ts ss fs) /\
  (forall ts c a e fs, mended_cond ts c a e fs -> cond_reports ts c a e fs) /\
  (forall ts e fs, mended_else ts e fs -> else_reports ts e fs).
Proof.
  apply mended_mutual.
  - intros nested ts ss G n m rest Fo. apply reports_none. destruct grammar_parses as (_ & _ & _ & _ & _ & _ & _ & Hss).
    apply (Hss _ _ _ G); destruct nested; cbn in Fo; auto; discriminate.
  - intros nested t1 s ends t2 ss fs G C N _ IH. destruct (statement_start _ _ _ G) as (Hret & Ht).
    assert (Ht' : exists t0 r, t1 ++ t2 = t0 :: r /\ is_block_terminator (tk_kind t0) = false) by (destruct Ht as (t0 & r & -> & Ht); cbn [app]; eauto).
    apply (loop_statement nested (t1 ++ t2) s [] t2 ss fs Ht' Hret); [|exact IH].
    intros n rest Fo. apply reports_none. rewrite <- app_assoc. apply goes_synchronize, goes_force. destruct grammar_parses as (_ & _ & _ & _ & _ & _ & Hs & _).
    apply (Hs _ _ _ G); [intros E; eapply before_continues; eauto|exact (before_assign nested t2 rest Fo N)].
  - intros nested t1 t t2 ss fs F _ IH. destruct (faulty_not_term _ _ F) as (t0 & r & Et & Ht).
    apply (loop_statement nested (t1 ++ t2) SIllFormed [t] t2 ss fs); [rewrite Et; cbn [app]; eauto|exact I| |exact IH].
    intros n rest Fo. rewrite <- app_assoc. destruct (faulty_fault _ _ F) as (e & y & Sb & X). destruct (X (t2 ++ rest)) as (mid & K & Y).
    eapply heals_reports; [eapply heals_sync; [apply fails_force, Y|exact K]|exact Sb].
  - intros nested t1 p t t2 ss fs B C _ IH.
    assert (Ht : exists t0 r, t1 ++ t2 = t0 :: r /\ is_block_terminator (tk_kind t0) = false) by (destruct B; eexists _, _; (split; [reflexivity|]); destruct k; try discriminate; reflexivity).
    apply (loop_statement nested (t1 ++ t2) (SExpr (ECommand ill_command_block p)) [t] t2 ss fs Ht I); [|exact IH]. intros n rest Fo. rewrite <- app_assoc.
    destruct (bad_block_statement _ _ _ (t2 ++ rest) B (before_continues _ _ _ Fo C)) as (e & Sb & X).
    eapply heals_reports; [apply heals_synchronize, heals_force, X|exact Sb].
  - (* while *) intros nested p t1 c q t2 body gs r t3 ss fs G _ IHb _ IH.
    apply (loop_statement nested _ _ gs t3 ss fs); [eexists _, _; split; reflexivity|exact I| |exact IH]. intros n rest Fo. norm. apply reports_synchronize, reports_force.
    unfold parse_statement. apply reports_token. cbn [hd_error]. rrest.
    eapply reports_goes; [apply goes_synchronize, pe_goes; [exact G|exact I]|]. eapply reports_goes; [apply goes_expect_keep; reflexivity|].
    eapply reports_then; [apply reports_pb; [exact IHb|reflexivity]|]. eapply goes_bind; [apply goes_expect_sync; reflexivity|apply goes_ret].
  - (* for *) intros nested p s q i t1 e d t2 body gs r t3 ss fs G _ IHb _ IH.
    apply (loop_statement nested _ _ gs t3 ss fs); [eexists _, _; split; reflexivity|exact I| |exact IH]. intros n rest Fo. norm. apply reports_synchronize, reports_force.
    unfold parse_statement. apply reports_token. cbn [hd_error]. rrest. eapply reports_goes; [apply goes_synchronize, goes_identifier|]. cbv iota beta.
    eapply reports_goes; [apply goes_expect_keep; reflexivity|].
    eapply reports_goes; [apply goes_synchronize, pe_goes; [exact G|exact I]|]. eapply reports_goes; [apply goes_expect_keep; reflexivity|].
    eapply reports_then; [apply reports_pb; [exact IHb|reflexivity]|]. eapply goes_bind; [apply goes_expect_sync; reflexivity|apply goes_ret].
  - (* function *) intros nested p s q o t1 ps c t2 body gs r t3 ss fs G _ IHb _ IH.
    apply (loop_statement nested _ _ gs t3 ss fs); [eexists _, _; split; reflexivity|exact I| |exact IH]. intros n rest Fo. norm. apply reports_synchronize, reports_force.
    unfold parse_statement. apply reports_token. cbn [hd_error]. eapply reports_goes; [apply goes_peek|]. cbn [hd_error]. rrest.
    eapply reports_goes; [apply goes_identifier|]. cbv iota beta. eapply reports_then with (a := (ps, BBlock body)); [|apply goes_ret].
    unfold parse_function. eapply reports_goes with (a := true).
    { intros b es. destruct (goes_expect TOpenParens o (t1 ++ tok TCloseParens c :: t2 ++ kw KEnd r :: t3 ++ rest) eq_refl b es) as [E|(b' & E)]; rewrite E; eauto. }
    eapply reports_goes; [apply params_goes; exact G|]. eapply reports_goes; [apply goes_expect_keep; reflexivity|].
    eapply reports_then; [apply reports_pb; [exact IHb|reflexivity]|]. eapply goes_bind; [apply goes_expect_sync; reflexivity|apply goes_ret].
  - (* if *) intros nested p t1 c a e gs r t2 ss fs _ IHc C _ IH.
    apply (loop_statement nested _ _ gs t2 ss fs); [eexists _, _; split; reflexivity|exact I| |exact IH]. intros n rest Fo. norm. apply reports_synchronize, reports_force.
    apply condition_statement; [eapply before_continues; eassumption|]. intros n'. unfold parse_primary. apply reports_token. cbn [hd_error]. rrest.
    eapply reports_then with (a := (c, a, e)); [apply IHc|]. eapply goes_bind; [apply goes_expect_sync; reflexivity|apply goes_ret].
  - (* cond *) intros t1 c p t2 ss fs t3 e es G _ IHb _ [T IHe] n m q r. destruct m; [apply reports_fuel|]. cbn [parse_condblock]. norm.
    eapply reports_goes; [apply goes_synchronize, pe_goes; [exact G|exact I]|]. eapply reports_goes; [apply goes_expect_keep; reflexivity|].
    eapply reports_both; [apply reports_pb; [exact IHb|]|].
    { destruct t3 as [|[k p3] t3]; cbn in T |- *; auto. }
    eapply reports_then; [apply IHe|apply goes_ret].
  - split; [reflexivity|]. intros n m q r. apply reports_token. cbn [app hd_error]. apply reports_none, goes_ret.
  - intros p ts ss fs _ IH. split; [reflexivity|]. intros n m q r. apply reports_token. cbn [app hd_error]. rrest. apply reports_pb; [exact IH|reflexivity].
  - intros p ts c a e fs _ IH. split; [reflexivity|]. intros n m q r. apply reports_token. cbn [app hd_error]. rrest.
    eapply reports_then; [apply IH|]. apply goes_ret.
Qed.
Lemma mended_loop ts ss fs : mended false ts ss fs -> forall n m, reports (block_loop n (pe_ n) (pb_ n) m) ts ss fs [].
Proof. intros M n m. rewrite <- (app_nil_r ts). apply (proj1 mended_reports _ _ _ _ M). reflexivity. Qed.
Lemma mended_tokens ts ss fs : mended false ts ss fs -> exists es r, parse_tokens ts = Parsed (BBlock ss) es r /\ map subject es = map Some fs.
Proof.
  intros M. destruct (parse_tokens_total ts) as (b' & es & r & E). unfold parse_tokens, parse_tokens_with in *. set (n := parser_fuel ts) in *.
  assert (R : reports (parse_program n (parse_block n)) ts (BBlock ss) fs []).
  { generalize n at 1. intros n0. destruct n0; [intros b es0; left; reflexivity|]. cbn [parse_program].
    eapply reports_then with (a := BBlock ss) (mid := []); [|apply goes_with_token; cbn [hd_error]; apply goes_ret].
    destruct n as [|n1]; [intros b es0; left; reflexivity|]. cbn [parse_block]. eapply reports_then; [apply mended_loop; exact M|apply goes_ret]. }
  destruct (R (length ts) []) as [E2|(b2 & es2 & E2 & S2)]; unfold st in E2; fold (pnew ts) in E2; rewrite E2 in *; [discriminate|].
  injection E as <- Ee _. eexists _, _. split; [reflexivity|]. cbn [ps_errors app]. rewrite map_map. exact S2.
Qed.
Lemma mended_source src ss fs : mended false (source_tokens src) ss fs ->
  analyze src = AnalysisCrash \/ exists les es, analyze src = Analysis (BBlock ss) les es /\ map subject es = map Some fs.
Proof.
  intros M. destruct (mended_tokens _ _ _ M) as (es & r & P & S). change (source_tokens src) with (tokens_of (outputs (Lexer.lex src))) in P.
  destruct (parsed_analysis _ _ _ _ P) as [C|[les C]]; eauto 6.
Qed.
