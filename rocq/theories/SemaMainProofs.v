(** The semantic analyser: main induction, whole programs, absence of panics on any tree. *)
From Coq Require Import Strings.String.
From Verif Require Import Base Lexer Ast Program Sema SpecLexer SpecParser SpecSema LexerProofs SemaProofs SemaTreeProofs SemaShapeProofs.
From Coq Require Import Lia Permutation.
Local Open Scope sema_scope.

Lemma if_spec c t e p fn lp here outer st :
  EP c -> BP t -> BP e -> wf_expr (EIf c t e p) -> vis here outer st ->
  spec (analyze_expr fn lp (EIf c t e p)) (legal_expr fn lp here outer (EIf c t e p))
    (fun en x ds => addr_expr fn lp en (EIf c t e p) x ds) st.
Proof.
  intros Hc Ht He Hwf Hv. cbn [analyze_expr legal_expr]. cbn [wf_expr] in Hwf. destruct Hwf as (W1 & W2 & W3 & W4).
  assert (S2 := inner_spec t fn lp here outer st Ht W2 Hv). assert (S3 := inner_spec e fn lp here outer st He W3 Hv).
  eapply spec_conseq; [eapply (spec_bind _ _ _ (legal_block fn lp [] (here ++ outer) t /\ legal_block fn lp [] (here ++ outer) e)
    _ (fun c en x ds => exists t' e' d1 d2, x = XIf c t' e' p /\ ds = d1 ++ d2 /\
         addr_block fn lp (enter en) t t' d1 /\ addr_block fn lp (enter en) e e' d2)); [apply Hc; eassumption|..]| |].
  - intros r. eapply wspec_ext; [intros s; apply enter_block_eq|].
    eapply wspec_bind; [eapply spec_weak, S2| |intros HL; exact HL]. intros r2. cbv beta.
    eapply wspec_ext; [intros s; apply enter_block_eq|].
    eapply wspec_bind; [eapply spec_weak, S3|intros; apply (wspec_ret _ True)|]. intros HL. split; [exact HL|exact I].
  - intros c'. eapply spec_ext; [intros s; apply enter_block_eq|].
    eapply spec_conseq; [eapply (spec_bind _ _ _ (legal_block fn lp [] (here ++ outer) e) _
      (fun t' en x ds => exists e', x = XIf c' t' e' p /\ addr_block fn lp (enter en) e e' ds)); [exact S2|..]|reflexivity|].
    + intros r2. eapply wspec_ext; [intros s; apply enter_block_eq|].
      eapply wspec_bind; [eapply spec_weak, S3|intros; apply (wspec_ret _ True)|]. intros HL. split; [exact HL|exact I].
    + intros t'. eapply spec_ext; [intros s; apply enter_block_eq|].
      eapply (spec_map _ _ (fun e' => XIf c' t' e' p)); [exact S3|reflexivity].
    + cbv beta. intros en x ds (t' & d1 & d2 & -> & HA & e' & -> & HB). eauto 8.
  - reflexivity.
  - cbv beta. intros en x ds (c' & d1 & d2 & -> & HA & t' & e' & d3 & d4 & -> & -> & HB & HC). constructor; auto.
Qed.

Lemma unary_spec op e p fn lp here outer st :
  EP e -> wf_expr e -> vis here outer st ->
  spec (analyze_expr fn lp (EUnary op e p)) (legal_expr fn lp here outer (EUnary op e p))
    (fun en x ds => addr_expr fn lp en (EUnary op e p) x ds) st.
Proof.
  intros He Hw Hv. cbn [analyze_expr legal_expr].
  assert (Hk : forall x, spec (match op, fn with UTry, false => _ <- report TryOutsideFunction p ;; ret None | _, _ => ret (Some (XUnary op x p)) end)
    (op = UTry -> fn = true) (fun _ y ds => y = XUnary op x p /\ ds = [] /\ (op = UTry -> fn = true)) st).
  { intros x. assert (Hr : (op = UTry -> fn = true) -> spec (ret (Some (XUnary op x p))) (op = UTry -> fn = true)
      (fun _ y ds => y = XUnary op x p /\ ds = [] /\ (op = UTry -> fn = true)) st).
    { intros H. eapply spec_conseq; [apply (spec_ret _ (fun _ y ds => y = XUnary op x p /\ ds = []))|..]; auto.
      - tauto.
      - cbv beta. tauto. }
    destruct op; try (apply Hr; discriminate). destruct fn; [now apply Hr|]. apply spec_report.
    intros H. specialize (H eq_refl). discriminate. }
  eapply spec_conseq; [eapply (spec_bind _ _ _ (op = UTry -> fn = true) _
     (fun x en y ds => y = XUnary op x p /\ ds = [] /\ (op = UTry -> fn = true))); [apply He; eassumption|..]| |].
  - intros [x|]; [eapply spec_weak, Hk|apply wspec_ret].
  - exact Hk.
  - tauto.
  - cbv beta. intros en y ds (x & d1 & d2 & -> & HA & -> & -> & HL). rewrite app_nil_r. now constructor.
Qed.

Lemma assign_spec l r p fn lp here outer st :
  EP' l -> EP r -> wf_expr l -> wf_expr r -> vis here outer st ->
  spec (analyze_statement fn lp (SAssign l r p)) (legal_statement fn lp outer here (SAssign l r p))
    (fun en x ds => forall en', en' = en -> addr_statement fn lp en (SAssign l r p) x ds en') st.
Proof.
  intros [Hl Hl'] Hr Wl Wr Hv. cbn [analyze_statement legal_statement].
  destruct l as [|q|x q|lt q|x q|es q|kvs q|ps b q|op e q|e1 op e2 q|c t e q|o f q|f args q|b q].
  all: try (eapply spec_conseq; [eapply (spec_both _ _ _ (fun l r => XAssign l r));
      [eapply (spec_report _ _ _ False (fun _ _ _ => False)); tauto|apply Hr; eassumption|reflexivity]|tauto|];
      cbv beta; intros en y ds (a & b' & d1 & d2 & _ & _ & [] & _); fail).
  - cbn [wf_expr] in Wl. destruct Wl as [Wx Wq]. rewrite plain_not_ill by assumption.
    eapply spec_conseq; [eapply (spec_both _ _ _ (fun l r => XAssign l r));
      [eapply (spec_map _ _ (fun ix => LIdent ix q)); [apply (resolve_spec (here ++ outer)); [assumption|apply Hv]|reflexivity]
      |apply Hr; eassumption|reflexivity]| |].
    + cbn [legal_expr]. tauto.
    + cbv beta. intros en y ds (a & b' & d1 & d2 & -> & -> & (i & -> & -> & Hd) & HB) en' ->. now constructor.
  - cbn [wf_expr] in Wl. destruct Wl as (Wo & Wf & Wq). destruct Hl' as [Ho Hf].
    eapply spec_conseq; [eapply (spec_both _ _ _ (fun l r => XAssign l r));
      [eapply (spec_both _ _ _ (fun o f => LAccess o f q)); [apply Ho; eassumption|apply Hf; eassumption|reflexivity]
      |apply Hr; eassumption|reflexivity]| |].
    + cbn [legal_expr]. tauto.
    + cbv beta. intros en y ds (a & b' & d1 & d2 & -> & -> & (o' & f' & d3 & d4 & -> & -> & HA1 & HA2) & HB) en' ->.
      rewrite <- app_assoc. now constructor.
Qed.

Lemma g_of_spec_vis {X} (m : M (option X)) L (A : env -> X -> list slot -> Prop) here outer st :
  spec m L A st -> vis here outer st ->
  gspec m L (fun en x ds en' => A en x ds /\ en' = en) (vis here outer) st.
Proof.
  intros H Hv. eapply g_conseq; [apply g_of_spec; eassumption|reflexivity|auto|]. intros st' Hk. eapply vis_kept; eauto.
Qed.

Lemma gweak_of_wspec {X} (m : M (option X)) (L : Prop) here outer st :
  wspec m L st -> vis here outer st -> gweak m L (vis here outer) st.
Proof.
  intros H Hv s D Ds Hk Hok. destruct (H s D Ds Hk Hok) as (r & s' & es & ds & H1 & H2 & H3 & H4 & H5).
  exists r, s', es, ds. do 3 (split; [assumption|]). split; [apply moved_kept; eauto|]. split; [|assumption].
  eapply vis_kept; [|exact Hv]. eapply kept_trans; eauto.
Qed.

Lemma trees : (forall e, EP' e) /\ (forall s, SP s) /\ (forall b, BP b).
Proof.
  apply tree_ind.
  - split; [|exact I]. intros fn lp here outer st [].
  - intros p. split; [|exact I]. intros fn lp here outer st Hw Hv. cbn [analyze_expr legal_expr]. destruct fn.
    + eapply spec_conseq; [eapply (self_spec p lp); eassumption|tauto|intros en x ds H; exact H].
    + apply spec_report. discriminate.
  - intros x p. split; [|exact I]. intros fn lp here outer st [Hx Hp] Hv. cbn [analyze_expr legal_expr]. rewrite plain_not_ill by assumption.
    eapply spec_conseq; [eapply (spec_map _ _ (fun ix => XIdent ix p)); [apply (resolve_spec (here ++ outer)); [assumption|apply Hv]|reflexivity]|reflexivity|].
    cbv beta. intros en y ds (i & -> & -> & Hd). now constructor.
  - intros l p. split; [|exact I]. intros fn lp here outer st Hw Hv. cbn [analyze_expr legal_expr]. apply spec_ret. intros; constructor.
  - intros x p. split; [|exact I]. intros fn lp here outer st [Hx Hp] Hv. cbn [analyze_expr legal_expr]. rewrite plain_not_ill by assumption.
    apply spec_ret. intros; constructor.
  - intros es p HF. split; [|exact I]. intros fn lp here outer st [Hes Hp] Hv. cbn [analyze_expr legal_expr].
    eapply spec_conseq; [eapply (spec_map _ _ (fun es => XArray es p)); [eapply exprs_spec; eassumption|reflexivity]|reflexivity|].
    cbv beta. intros en y ds (xs & -> & HA). now constructor.
  - intros kvs p HF. split; [|exact I]. intros fn lp here outer st [Hes Hp] Hv. cbn [analyze_expr legal_expr].
    apply spec_clear.
    eapply spec_conseq; [eapply (spec_map _ _ (fun kvs => XDict kvs p)); [eapply dict_spec; eassumption|reflexivity]|reflexivity|].
    cbv beta. intros en y ds (xs & -> & HA & HB). now constructor.
  - intros ps b p Hb. split; [|exact I]. intros fn lp here outer st (H1 & H2 & H3) Hv. now apply function_spec.
  - intros op e p [He _]. split; [|exact I]. intros fn lp here outer st (H1 & H2) Hv. now apply unary_spec.
  - intros l op r p [Hl _] [Hr _]. split; [|exact I]. intros fn lp here outer st (W1 & W2 & W3) Hv. cbn [analyze_expr legal_expr].
    eapply spec_conseq; [eapply (spec_both _ _ _ (fun l r => XBinary l op r p)); [apply Hl; eassumption|apply Hr; eassumption|reflexivity]|reflexivity|].
    cbv beta. intros en y ds (a & b & d1 & d2 & -> & -> & HA & HB). now constructor.
  - intros c t e p [Hc _] Ht He. split; [|exact I]. intros fn lp here outer st Hw Hv. now apply if_spec.
  - intros o f p [Ho _] [Hf _]. split; [|split; assumption]. intros fn lp here outer st (W1 & W2 & W3) Hv. cbn [analyze_expr legal_expr].
    eapply spec_conseq; [eapply (spec_both _ _ _ (fun o f => XAccess o f p)); [apply Ho; eassumption|apply Hf; eassumption|reflexivity]|reflexivity|].
    cbv beta. intros en y ds (a & b & d1 & d2 & -> & -> & HA & HB). now constructor.
  - intros f args p [Hf _] HF. split; [|exact I]. intros fn lp here outer st (W1 & W2 & W3) Hv. cbn [analyze_expr legal_expr].
    eapply spec_conseq; [eapply (spec_both _ _ _ (fun f args => XCall f args p)); [apply Hf; eassumption|eapply exprs_spec; eassumption|reflexivity]|reflexivity|].
    cbv beta. intros en y ds (a & b & d1 & d2 & -> & -> & HA & HB). now constructor.
  - intros b p. split; [|exact I]. intros fn lp here outer st [W1 W2] Hv. cbn [analyze_expr legal_expr].
    eapply spec_conseq; [eapply (spec_map _ _ (fun b => XCommand b p)); [eapply command_block_spec; [assumption|apply Hv]|reflexivity]|reflexivity|].
    cbv beta. intros en y ds (x & -> & -> & HA). now constructor.
  - intros fn lp here outer st [].
  - (* let *)
    intros x e p [He _] fn lp here outer st (Hx & Hw & Hp) Hv. cbn [analyze_statement legal_statement declares app].
    eapply g_conseq; [eapply (g_bind _ _ _ (legal_expr fn lp (x :: here) outer e) _
      (fun i en y ds en' => exists e', y = XAssign (LIdent i p) e' /\ addr_expr fn lp en e e' ds /\ en' = en) _ (vis (x :: here) outer));
      [apply declare_spec; eassumption|..]|reflexivity| |auto].
    + intros st' r Hv'. eapply gweak_of_wspec; [|eassumption].
      eapply wspec_bind; [eapply spec_weak, He; eassumption|intros; apply (wspec_ret _ True)|]. intros HL. split; [exact HL|exact I].
    + intros st' i Hv'. eapply g_conseq; [apply g_of_spec_vis; [|eassumption];
        eapply (spec_map _ _ (fun e' => XAssign (LIdent i p) e')); [apply He; eassumption|reflexivity]|reflexivity| |auto].
      cbv beta. intros en y ds en' [(e' & -> & HA) ->]. eauto.
    + cbv beta. intros en y ds en' (i & d1 & d2 & en1 & -> & (fi & sc & scs & en0 & -> & Ha & -> & ->) & e' & -> & HA & ->).
      now apply as_let.
  - (* assignment *)
    intros l r p Hl [Hr _] fn lp here outer st (W1 & W2 & W3) Hv. cbn [declares app].
    eapply g_conseq; [apply g_of_spec_vis; [apply assign_spec; eassumption|eassumption]|reflexivity| |auto].
    cbv beta. intros en x ds en' [H ->]. now apply H.
  - (* return *)
    intros e p [He _] fn lp here outer st (W1 & W2) Hv. cbn [declares app analyze_statement legal_statement].
    eapply g_conseq; [apply g_of_spec_vis; [|eassumption]| | |auto].
    + eapply (spec_both _ _ _ (fun _ e => XReturn e) (fn = true) _ (fun _ _ ds => ds = [] /\ fn = true)); [|apply He; eassumption|reflexivity].
      destruct fn.
      * eapply spec_conseq; [apply (spec_ret tt (fun _ _ ds => ds = []))|tauto|]; auto.
      * apply spec_report. discriminate.
    + reflexivity.
    + cbv beta. intros en x ds en' [(u & x' & d1 & d2 & -> & -> & [-> ->] & HA) ->]. now constructor.
  - (* break *)
    intros p fn lp here outer st Hw Hv. cbn [declares app analyze_statement legal_statement].
    eapply g_conseq; [apply (g_of_spec_vis _ (lp = true) (fun _ x ds => x = XBreak /\ ds = [] /\ lp = true)); [|eassumption]|reflexivity| |auto].
    + destruct lp; [|apply spec_report; discriminate].
      eapply spec_conseq; [apply (spec_ret XBreak (fun _ x ds => x = XBreak /\ ds = []))|tauto|]; auto. cbv beta. tauto.
    + cbv beta. intros en x ds en' [(-> & -> & ->) ->]. constructor.
  - (* while *)
    intros c b p [Hc _] Hb fn lp here outer st (W1 & W2 & W3) Hv. cbn [declares app analyze_statement legal_statement].
    assert (S2 := inner_spec b fn true here outer st Hb W2 Hv).
    eapply g_conseq; [apply g_of_spec_vis; [|eassumption]|reflexivity| |auto].
    + eapply spec_ext; [|eapply (spec_both _ _ (fun c b => match zip c b with Some (c, b) => Some (XWhile c b) | None => None end) (fun c b => XWhile c b)); [apply Hc; eassumption|exact S2|reflexivity]].
      intros s. unfold bind at 1 5. destruct (analyze_expr fn lp c s) as [[r s1]|]; [|reflexivity]. apply enter_block_eq.
    + cbv beta. intros en x ds en' [(c' & b' & d1 & d2 & -> & -> & HA & HB) ->]. now constructor.
  - (* for *)
    intros x e b p [He _] Hb fn lp here outer st (W1 & W2 & W3 & W4) Hv. cbn [declares app analyze_statement legal_statement].
    rewrite plain_not_ill by assumption.
    assert (S2 := for_spec x p b fn here outer st Hb W3 W1 Hv).
    eapply g_conseq; [apply g_of_spec_vis; [|eassumption]|reflexivity| |auto].
    + eapply spec_ext; [|eapply (spec_both _ _ (fun e ixb => match zip e ixb with Some (e, (ix, b)) => Some (XFor ix e b) | None => None end)
         (fun e ixb => XFor (fst ixb) e (snd ixb))); [apply He; eassumption|exact S2|intros ? [? ?]; reflexivity]].
      intros s. unfold bind at 1 6. destruct (analyze_expr fn lp e s) as [[r s1]|]; [|reflexivity].
      unfold in_block, bind. destruct (enter_block s1) as [[[] s2]|]; [|reflexivity]. destruct (declare x p s2) as [[ix s3]|]; [|reflexivity].
      destruct (analyze_block fn true b s3) as [[b' s4]|]; [|reflexivity]. cbn [ret]. destruct (exit_block s4) as [[[] s5]|]; reflexivity.
    + cbv beta. intros en y ds en' [(e' & [i b'] & d1 & d2 & -> & -> & HA & d3 & -> & HB) ->]. now constructor.
  - (* expression *)
    intros e [He _] fn lp here outer st Hw Hv. cbn [declares app analyze_statement legal_statement].
    eapply g_conseq; [apply g_of_spec_vis; [eapply (spec_map _ _ XExpr); [apply He; eassumption|reflexivity]|eassumption]|reflexivity| |auto].
    cbv beta. intros en x ds en' [(x' & -> & HA) ->]. now constructor.
  - intros fn lp here outer st [].
  - intros ss HF fn lp here outer st Hw Hv. cbn [analyze_block legal_block].
    eapply g_conseq; [apply statements_spec; eassumption|reflexivity| |auto].
    cbv beta. intros en xs ds en' H. now constructor.
Qed.

(** ** Whole programs *)

Lemma vis_start : vis [bs "std"%string] [] (ss_stack start).
Proof.
  assert (E : forall x, assoc x [(bs "std"%string, 0)] <> None <-> In x [bs "std"%string]).
  { intros x. rewrite assoc_none. unfold absent. cbn. split; [|tauto].
    destruct (list_eq_dec Byte.byte_eq_dec (bs "std"%string) x); tauto. }
  split.
  - intros x Hx. cbn [app]. unfold visible, start, ss_stack. rewrite Exists_cons. unfold frame_resolve, fr_scopes. cbn [scopes_resolve].
    rewrite <- E. destruct (assoc x _); [split; [left|]; discriminate|]. split; [congruence|]. intros [H|H]; [congruence|inversion H].
  - intros x Hx. cbn. tauto.
Qed.

Lemma ok_start : okst [[0]] (ss_stack start).
Proof.
  split; [|exact I]. split; cbn [fr_slots fr_captures fr_self fr_scopes]; try discriminate; try contradiction.
  - reflexivity.
  - intros x i Hx. cbn [last assoc]. destruct (bytes_eqb (bs "std"%string) (closed_symbol x)) eqn:E; [|discriminate].
    apply bytes_eqb_eq in E. assert (H := closed_not_plain x). rewrite <- E in H. discriminate.
Qed.

Lemma sema_correct b : wf_block b ->
  (forall p, sema b = SemaOk p -> legal b /\ addressed b p) /\
  (forall es, sema b = SemaErrors es -> es <> [] /\ (legal b -> Forall dupkey es)).
Proof.
  intros Hwf. destruct (sema_run b) as (r & s & f & E & Est & Hself & ->).
  destruct (proj2 (proj2 trees) b false false _ _ _ Hwf vis_start start [0] [] (kept_refl _) ok_start)
    as (r' & s' & es' & ds & E' & Eerr & Hok & Hm & _ & HL & HA).
  rewrite E in E'. injection E' as <- <-. cbn [start ss_errors app] in Eerr. rewrite Eerr. rewrite Est in *.
  split.
  - intros p Hp. destruct r as [ss|]; [|discriminate]. destruct es'; [|discriminate]. injection Hp as <-.
    destruct (HA eq_refl) as (HL' & x & [= <-] & HA'). split; [exact HL'|].
    destruct Hok as [[H1 H2 H3 H4] _]. assert (Hc : fr_captures f = []).
    { destruct (fr_captures f) as [|c cs]; [reflexivity|]. destruct (H4 c ltac:(now left)) as (x & _ & Hd). inversion Hd. }
    exists ds. cbn [pr_statements pr_root_slots]. rewrite Hc, Hself in H1. cbn [map option_list app] in H1. rewrite app_nil_r in H1.
    split; [|split].
    + specialize (HA' [mkframe_info (fr_slots f) [] None]). cbn [start ss_stack envs] in HA'. apply HA'.
      constructor; [|constructor]. split; cbn; [rewrite Hc; apply incl_refl|congruence].
    + eapply Permutation_NoDup; [symmetry; exact H1|apply seq_NoDup].
    + intros i. change (0 :: ds) with ([0] ++ ds). rewrite (Permutation_in' eq_refl H1), in_seq. cbn.
      split; [intros [_ H]; exact H|intros H; split; [apply Nat.le_0_l|exact H]].
  - intros es Hes. assert (es = es' /\ (es' = [] -> False)) as [-> Hn].
    { destruct r as [ss|].
      - destruct es'; [discriminate|]. injection Hes as <-. split; [reflexivity|discriminate].
      - injection Hes as <-. split; [reflexivity|]. intros ->. destruct (HA eq_refl) as (_ & x & Hx & _). discriminate. }
    split; [auto|exact HL].
Qed.
