(** Conditions as the printer writes them, read back. *)
From Coq Require Import List NArith Bool String Arith Lia.
From Verif Require Import Bytes Utf8 F64 Ast Peg Actions Engine AstPrint AstInd EscapeFacts QuoteFacts SimpleFacts PosFacts Matches PegSem LexFacts Tree Rules Bare Reads Lines NumPrint Layout ReadLex ReadGap ReadCom ReadVal.
Import ListNotations.

(** ** The tree that is read back *)
Definition re_rvalue (r : rvalue) : rvalue :=
  match r with
  | RVNil => RVNil
  | RVStr s => RVStr (bare_str s)
  | RVNum n => RVNum (bare_num n)
  | RVSel s => RVSel (bare_sel s)
  | RVArr _ n l c f => RVArr zero_pos n (firsts re_attr l) c (norm f)
  | RVRe r => RVRe (bare_re r)
  end.
Fixpoint re_cexpr (e : cexpr) : cexpr :=
  match e with
  | ExNil => ExNil
  | ExCond _ bo c => ExCond zero_pos (bare_bo bo) (re_cond c)
  | ExNeg _ bo c => ExNeg zero_pos (bare_bo bo) (re_cond c)
  | ExNegSel _ bo s => ExNegSel zero_pos (bare_bo bo) (bare_sel s)
  | ExIn _ bo l r => ExIn zero_pos (bare_bo bo) (re_rvalue l) (re_rvalue r)
  | ExNotIn _ bo l r => ExNotIn zero_pos (bare_bo bo) (re_rvalue l) (re_rvalue r)
  | ExRv _ bo r => ExRv zero_pos (bare_bo bo) (re_rvalue r)
  | ExCmp _ bo l o r => ExCmp zero_pos (bare_bo bo) (re_rvalue l) (bare_co o) (re_rvalue r)
  | ExRe _ bo l o r => ExRe zero_pos (bare_bo bo) (re_rvalue l) (bare_ro o) (bare_strorre r)
  end
with re_cond (c : condition) : condition := match c with Cond l => Cond (map re_cexpr l) end.

Lemma find_rvalue : find_rule "rvalue" rules = Some rvalue_e. Proof. reflexivity. Qed.
Lemma find_expression : find_rule "expression" rules = Some expression_e. Proof. reflexivity. Qed.
Lemma find_condition : find_rule "condition" rules = Some condition_e. Proof. reflexivity. Qed.
Lemma find_neg : find_rule "negativeExpression" rules = Some negativeExpression_e. Proof. reflexivity. Qed.
Lemma find_in : find_rule "inExpression" rules = Some inExpression_e. Proof. reflexivity. Qed.
Lemma find_notin : find_rule "notInExpression" rules = Some notInExpression_e. Proof. reflexivity. Qed.
Lemma find_cmp : find_rule "compareExpression" rules = Some compareExpression_e. Proof. reflexivity. Qed.
Lemma find_re : find_rule "regexpExpression" rules = Some regexpExpression_e. Proof. reflexivity. Qed.
Ltac differ := cbv; intuition discriminate.

(** ** Operands *)
Definition rvc (c : N) : Prop := In c [DQ; SQ; 91; 47]%N \/ digit c \/ c = 45%N.
Lemma rvc_plain c : rvc c -> plain c.
Proof. intros [H|[H|H]]; [|split; [unfold digit in *; lia|cbn; unfold digit in *; lia]|subst; split; [reflexivity|differ]]. enum H; (split; [reflexivity|differ]). Qed.
Lemma rvc_not c : rvc c -> ~ In c [40; 33]%N.
Proof. unfold rvc, digit, DQ, SQ. cbn [In]. lia. Qed.
Lemma cstr_first s : cstr_ok s -> firstc (fun c => In c [DQ; SQ]) (sa_value_string s).
Proof.
  intros (_ & H & NB & _). unfold sa_value_string. destruct (sa_type s); cbn [str_ok sat_string] in *; try congruence; try contradiction; eexists _, _; (split; [reflexivity|]); [now left|right; now left].
Qed.
Lemma rv_first r n : pr_rvalue r -> firstc rvc (trvalue n r).
Proof.
  destruct r as [|s|v|s|p m l c f|r]; cbn [pr_rvalue trvalue]; intros H.
  - contradiction.
  - eapply firstc_imp; [|now apply cstr_first]. intros c I. left. enum I; [now left|right; now left].
  - eapply firstc_imp; [|apply number_first, H]. intros c I. now right.
  - destruct H as [[N _] _]. destruct s as [p [|e els]]; [now elim N|]. eexists _, _. split; [reflexivity|]. left. right. right. now left.
  - eexists _, _. split; [reflexivity|]. left. right. right. now left.
  - eexists _, _. split; [reflexivity|]. left. right. right. right. now left.
Qed.
Lemma cstr_reads s r : cstr_ok s -> exists en', rd string_e [] (sa_value_string s ++ r) (VAttr (AtStr (bare_str s))) en' r.
Proof.
  intros (N & H & NB & C). assert (E : bare_str s = StrAttr zero_pos [] (sa_val s) (sa_type s) []) by (unfold bare_str; now rewrite N, C). rewrite E. clear E.
  unfold sa_value_string. destruct (sa_type s); cbn [str_ok sat_string] in *; try congruence; try contradiction.
  - destruct (quoted_reads_rd DQ (sa_val s) r) as (en' & R); [now left|exact H|]. exists en'. rewrite <- !app_assoc. exact R.
  - destruct (quoted_reads_rd SQ (sa_val s) r) as (en' & R); [right; now left|exact H|]. exists en'. rewrite <- !app_assoc. exact R.
Qed.
Lemma regexp_rd x s en : re_ok x -> rd regexp_e en (regexp_string x ++ s) (VRe (bare_re x)) en s.
Proof.
  intros H. exists ([SLASH] ++ re_text x ++ [SLASH]). split; [reflexivity|]. now apply regexp_reads.
Qed.
(** arrays that do not look like selectors *)
Lemma mark_in c : mark c = true <-> In c [93; 91; 44]%N.
Proof.
  unfold mark, mem. cbn [existsb]. rewrite !orb_true_iff, !N.eqb_eq. cbn [In]. intuition.
Qed.
Lemma filter_split (P : N -> bool) s c l : filter P s = c :: l -> exists u v, s = u ++ c :: v /\ Forall (fun x => P x = false) u /\ P c = true /\ filter P v = l.
Proof.
  induction s as [|x s IH]; [discriminate|]. cbn [filter]. destruct (P x) eqn:E.
  - intros X. inversion X; subst. exists [], s. split; [reflexivity|]. repeat split; auto.
  - intros X. destruct (IH X) as (u & v & -> & F & Pc & Fv). exists (x :: u), v. split; [reflexivity|]. repeat split; auto.
Qed.
Lemma selector_no_array s l : (filter mark s = 91%N :: l /\ (exists t, s = 91%N :: t) /\ match l with c :: _ => c <> 93%N | [] => False end) -> forall r en, no selector_e en (s ++ r).
Proof.
  intros (F & (t & ->) & M) r en. cbn [filter] in F. change (mark 91%N) with true in F. cbn iota in F. injection F as F. destruct l as [|c l]; [contradiction|].
  apply filter_split in F as (u & v & -> & Fu & Pc & _). apply mark_in in Pc.
  apply no_act, no_lab, no_plus, no_act, no_seq. cbn [app]. eapply nos_rd; [apply rd_chr; reflexivity|]. rewrite <- app_assoc. cbn [app].
  destruct (okt_runes (ign := false) "[^][,]" [93; 91; 44]%N c u (v ++ r)) as (vs & K & Nv); [repeat constructor|exact Pc| |].
  { eapply Forall_impl; [|exact Fu]. cbn beta. intros x Hx I. apply mark_in in I. congruence. }
  destruct u as [|x u].
  - apply nos_here, no_plus. apply no_stop. cbn [app]. split; [|now apply class_negated]. clear -Pc. enum Pc; reflexivity.
  - destruct vs as [|y vs]; [exfalso; now apply Nv|]. eapply nos_rd; [apply rd_plus; exists (x :: u); split; [reflexivity|exact K]|].
    apply nos_here, no_choice; [|apply no_choice; [apply no_soft|apply no_none]]. apply no_chr; [repeat constructor|]. intros [E|[]]. now apply M.
Qed.
Lemma selector_no_empty s en : no selector_e en (91%N :: 93%N :: s).
Proof.
  apply no_act, no_lab, no_plus, no_act, no_seq. eapply nos_rd; [apply rd_chr; reflexivity|]. apply nos_here, no_plus, no_stop. split; reflexivity.
Qed.
Lemma marks_depth nm a n : pr_attr nm a -> filter mark (tval n a) = filter mark (tval 0 a).
Proof.
  intros H. induction n as [|n IH]; [reflexivity|]. rewrite <- IH. pose proof (tok_in _ _ (plugin_lay nm a H n)) as L. exact (lay_marks _ _ _ _ L).
Qed.
Lemma rvalue_reads r n s : pr_rvalue r -> delim s -> exists v, rd (ERef "rvalue") [] (trvalue n r ++ s) v [] s /\ as_rvalue v = Some (re_rvalue r).
Proof.
  intros H D. pose proof (rv_first r n H) as F. destruct r as [|x|x|x|p m l c f|x]; cbn [pr_rvalue trvalue re_rvalue] in *.
  - contradiction.
  - destruct (cstr_reads x s H) as (en' & R). eexists. split; [eapply rd_ref with (1 := find_rvalue); eapply rd_choice, R|reflexivity].
  - destruct H as (N & H & C). eexists. split; [eapply rd_ref with (1 := find_rvalue); eapply rd_next; [|eapply rd_choice, number_reads; auto]|].
    + apply string_no. apply firstc_not with (P := fun c => digit c \/ c = 45%N); [intros c0 [Hc|Hc] I; enum I; unfold digit, DQ, SQ in *; lia|]. apply firstc_app, number_first, H.
    + unfold bare_num. rewrite N, C. reflexivity.
  - destruct H as [H _]. destruct (selector_reads x s [] H) as (en' & R); [apply delim_first; [exact D|repeat constructor; differ]|].
    assert (E : exists t, selector_string x ++ s = 91%N :: t). { destruct H as [N _]. destruct x as [px [|e els]]; [now elim N|]. eexists. reflexivity. }
    destruct E as (t & E). rewrite E in *. exists (VSel (bare_sel x)). split; [eapply rd_ref with (1 := find_rvalue)|reflexivity].
    apply rd_next; [apply string_no; differ|]. apply rd_next; [apply number_no; [differ|split; reflexivity]|]. eapply rd_choice, R.
  - destruct H as (-> & -> & Hf & Hl & Ns).
    assert (A : Forall (fun a => pr_attr false a /\ Vreads a) l). { apply All_F in Hl. rewrite Forall_forall in *. intros a Ha. split; [auto|apply value_reads]. }
    assert (Pr : pr_attr false (AtArr p [] l [] f)) by (repeat split; auto; constructor).
    assert (Sel : no selector_e [] (tval n (AtArr p [] l [] f) ++ s)).
    { destruct Ns as [[-> ->]|Ns]; [apply selector_no_empty|].
      assert (Eq : filter mark (tval n (AtArr p [] l [] f)) = filter mark (attr_value (AtArr zero_pos [] l [] f))).
      { rewrite (marks_depth false _ n Pr). f_equal. change (tval 0 (AtArr p [] l [] f)) with (tval 0 (AtArr zero_pos [] l [] f)). symmetry. apply (attr_layout _ false). repeat split; auto; constructor. }
      destruct (filter mark (attr_value (AtArr zero_pos [] l [] f))) as [|c0 [|c1 fs]] eqn:Ef; try contradiction.
      apply (selector_no_array _ (c1 :: fs)). rewrite Eq. split; [|split; [eexists; reflexivity|exact Ns]].
      cbn [tval app filter] in Eq. change (b "[") with [91%N] in Eq. cbn [app filter] in Eq. change (mark 91%N) with true in Eq. cbn iota in Eq. congruence. }
    destruct (array_reads l f p [] [] n s A Hf) as (en' & R).
    assert (E : exists t, tval n (AtArr p [] l [] f) ++ s = 91%N :: t) by (eexists; reflexivity). destruct E as (t & E). rewrite E in *.
    eexists. split; [eapply rd_ref with (1 := find_rvalue)|].
    + apply rd_next; [apply string_no; differ|]. apply rd_next; [apply number_no; [differ|split; reflexivity]|]. apply rd_next; [exact Sel|]. eapply rd_choice, rd_ref with (1 := find_array), R.
    + reflexivity.
  - destruct H as [H _]. pose proof (regexp_rd x s [] H) as R.
    assert (E : exists t, regexp_string x ++ s = 47%N :: t) by (eexists; reflexivity). destruct E as (t & E). rewrite E in *.
    exists (VRe (bare_re x)). split; [eapply rd_ref with (1 := find_rvalue)|reflexivity].
    apply rd_next; [apply string_no; differ|]. apply rd_next; [apply number_no; [differ|split; reflexivity]|]. apply rd_next; [apply selector_no; differ|].
    apply rd_next; [apply no_ref with (1 := find_array), no_act, no_seq, nos_here, no_chr; [repeat constructor|differ]|]. eapply rd_choice, R.
Qed.
(** no operand starts with such a character *)
Definition no_rv (s : bytes) : Prop :=
  first_not [DQ; SQ; 91; 47]%N s /\ stop [] [(48, 57)]%N false s /\ match s with 45%N :: s' => stop [] [(48, 57)]%N false s' | _ => True end.
Lemma number_no_minus s en : stop [] [(48, 57)]%N false s -> match s with 45%N :: s' => stop [] [(48, 57)]%N false s' | _ => True end -> no number_e en s.
Proof.
  intros K M. destruct s as [|c s]; [now apply number_no|]. destruct (N.eq_dec c 45) as [-> | D]; [|apply number_no; [cbn; intuition congruence|exact K]].
  apply no_act, no_seq. eapply nos_rd; [eapply rd_opt, rd_chr; reflexivity|]. apply nos_here, no_plus, no_stop, M.
Qed.
Lemma rvalue_no s en : no_rv s -> no (ERef "rvalue") en s.
Proof.
  intros (H & K & M). assert (S : forall cs, incl cs [DQ; SQ; 91; 47]%N -> first_not cs s). { intros cs I. destruct s; [exact Logic.I|]. intros X. apply H. now apply I. }
  apply no_ref with (1 := find_rvalue). apply no_choice; [apply string_no, S; intros x X; cbn in *; intuition|].
  apply no_choice; [now apply number_no_minus|]. apply no_choice; [apply selector_no, S; intros x X; cbn in *; intuition|].
  apply no_choice; [apply no_ref with (1 := find_array), no_act, no_seq, nos_here, no_chr; [repeat constructor|apply S; intros x X; cbn in *; intuition]|].
  apply no_choice; [apply regexp_no, S; intros x X; cbn in *; intuition|]. apply no_choice; [apply no_soft|apply no_none].
Qed.

(** ** Expressions *)
Definition no_ops (s : bytes) : Prop := forall en, no in_op_e en s /\ no not_in_op_e en s /\ no cmpop_e en s /\ no reop_e en s.
Definition efollow (s : bytes) : Prop := delim s /\ exists s', skip_to s s' /\ no_ops s'.
Definition cfollow (s : bytes) : Prop := delim s /\ exists s', skip_to s s' /\ no_ops s' /\ forall en, no boolop_e en s'.
Lemma cfollow_e s : cfollow s -> efollow s.
Proof. intros (D & s' & K & H & _). split; [exact D|]. exists s'. auto. Qed.
Ltac no_lits := repeat first [apply no_act | apply no_soft | apply no_none | apply no_choice
  | apply no_seq, nos_here | apply no_lit; [repeat constructor|intros ? ?; discriminate] | apply no_stop; split; reflexivity].
Lemma no_ops_brace c s : In c [123; 41]%N -> no_ops (c :: s) /\ forall en, no boolop_e en (c :: s).
Proof. intros I. enum I; (split; [intros en; repeat split|intros en]); no_lits. Qed.
Lemma cfollow_brace s : cfollow (SP :: 123%N :: s).
Proof. split; [now left|]. exists (123%N :: s). split; [apply skip_sp, nogap_plain, plain_close|]. apply no_ops_brace. now left. Qed.
Lemma cfollow_paren s : cfollow (41%N :: s).
Proof. split; [cbv; auto 10|]. exists (41%N :: s). split; [apply skip_none, nogap_plain, plain_close|]. apply no_ops_brace. right. now left. Qed.
Definition opword (o : boolop) : bytes :=
  match o with BoAnd => b "and" | BoOr => b "or" | BoNand => b "nand" | BoXor => b "xor" | _ => [] end.
Lemma boolop_reads o s en : o <> BoNone -> o <> BoUndef -> rd boolop_e en (opword o ++ s) (VBoolOp (BoolOp o zero_pos)) en s.
Proof.
  intros H1 H2. exists (opword o). split; [reflexivity|]. destruct o; try congruence; (eapply ok_act; [|reflexivity]); cbn [opword].
  - eapply ok_choice, ok_lit. repeat constructor.
  - eapply ok_next; [no_lits|]. eapply ok_choice, ok_lit. repeat constructor.
  - do 2 (eapply ok_next; [no_lits|]). eapply ok_choice, ok_lit. repeat constructor.
  - do 3 (eapply ok_next; [no_lits|]). eapply ok_choice, ok_lit. repeat constructor.
Qed.
Lemma boolop_text o : o <> BoNone -> o <> BoUndef -> boolop_string o = SP :: opword o ++ [SP].
Proof. intros H1 H2. destruct o; try congruence; reflexivity. Qed.
Lemma opword_gap o s : o <> BoNone -> o <> BoUndef -> nogap (opword o ++ s).
Proof. intros H1 H2. destruct o; try congruence; apply nogap_plain; (split; [reflexivity|differ]). Qed.
Lemma opword_no_ops o s : o <> BoNone -> o <> BoUndef -> no_ops (opword o ++ SP :: s).
Proof. intros H1 H2 en. destruct o; try congruence; repeat split; no_lits. Qed.
Lemma efollow_op o s : o <> BoNone -> o <> BoUndef -> efollow (boolop_string o ++ s).
Proof.
  intros H1 H2. rewrite boolop_text by assumption. split; [now left|]. exists (opword o ++ SP :: s). split; [|now apply opword_no_ops].
  cbn [app]. rewrite <- app_assoc. cbn [app]. apply skip_sp. now apply opword_gap.
Qed.

Definition ebo (e : cexpr) : boolopn :=
  match e with
  | ExNil => no_op
  | ExCond _ bo _ | ExNeg _ bo _ | ExNegSel _ bo _ | ExIn _ bo _ _ | ExNotIn _ bo _ _ | ExRv _ bo _ | ExCmp _ bo _ _ _ | ExRe _ bo _ _ _ => bo
  end.
Definition ecore (n : nat) (e : cexpr) : bytes := tcexpr n (set_bool_op e no_op).
Lemma tcexpr_core n e : e <> ExNil -> tcexpr n e = boolop_string (bo_op (ebo e)) ++ ecore n e.
Proof. destruct e; try congruence; reflexivity. Qed.
Lemma pr_ebo f e : pr_cexpr f e -> e <> ExNil /\ bo_ok f (ebo e).
Proof. destruct e; cbn; intros H; try contradiction; (split; [discriminate|tauto]). Qed.
Definition exprc (c : N) : Prop := rvc c \/ In c [40; 33]%N.
Lemma exprc_plain c : exprc c -> plain c.
Proof. intros [H|H]; [now apply rvc_plain|]. enum H; split; reflexivity || differ. Qed.
Lemma ecore_first f e n : pr_cexpr f e -> firstc exprc (ecore n e).
Proof.
  destruct e; cbn [pr_cexpr]; intros H; try contradiction; unfold ecore; cbn [set_bool_op tcexpr no_op bo_op boolop_string app].
  all: try (eexists _, _; split; [reflexivity|right; cbv; auto]; fail).
  all: try (apply firstc_app); (eapply firstc_imp; [|apply rv_first; apply H]); intros c Hc; now left.
Qed.
Definition Ereads (e : cexpr) : Prop := forall f n s, pr_cexpr f e -> efollow s ->
  rd (ERef "expression") [] (ecore n e ++ s) (VExpr (re_cexpr (set_bool_op e no_op))) [] s.
Lemma ecore_gap f e n s : pr_cexpr f e -> nogap (ecore n e ++ s).
Proof. intros H. eapply firstc_nogap; [exact exprc_plain|]. apply firstc_app. eapply ecore_first, H. Qed.
Lemma set_re e : re_cexpr e = set_bool_op (re_cexpr (set_bool_op e no_op)) (bare_bo (ebo e)).
Proof. destruct e; reflexivity. Qed.
Lemma exprs_more n l s : Forall (fun e => pr_cexpr false e /\ Ereads e) l -> cfollow s ->
  rdt more_expr_e (flat_map (tcexpr n) l ++ s) (map (fun e => VExpr (re_cexpr e)) l) s /\ efollow (flat_map (tcexpr n) l ++ s).
Proof.
  intros H K. induction H as [|x l [Hx Vx] H [IH1 IH2]].
  - split; [|now apply cfollow_e]. destruct K as (D & s' & K & _ & N). cbn [flat_map app map]. apply rdt_stop. apply no_act, no_seq.
    destruct (skip_gaps s s' [] K) as (v & R). eapply nos_rd; [exact R|]. apply nos_warn, nos_here, no_lab, N.
  - cbn [flat_map map]. rewrite <- app_assoc. remember (flat_map (tcexpr n) l ++ s) as T eqn:ET. clear ET.
    destruct (pr_ebo _ _ Hx) as [N [B1 B2]]. rewrite (tcexpr_core n x N), <- app_assoc. split; [|now apply efollow_op].
    rewrite boolop_text by assumption. cbn [app]. rewrite <- app_assoc. cbn [app].
    destruct (skip_gaps (SP :: opword (bo_op (ebo x)) ++ SP :: ecore n x ++ T) _ [] (skip_sp _ (opword_gap _ _ B1 B2))) as (v1 & R1).
    destruct (skip_gaps (SP :: ecore n x ++ T) _ (bind "bo" (VBoolOp (bare_bo (ebo x))) []) (skip_sp _ (ecore_gap _ _ n T Hx))) as (v2 & R2).
    eapply rdt_more; [|exact IH1]. eapply rd_act.
    + eapply rds_cons; [exact R1|]. apply rds_warn. eapply rds_cons; [eapply rd_lab, boolop_reads; assumption|]. eapply rds_cons; [exact R2|]. apply rds_warn.
      eapply rds_cons; [eapply rd_lab, (Vx false n T Hx IH2)|apply rds_nil].
    + intros t. cbn [run_action]. rewrite (set_re x). reflexivity.
Qed.
Definition Creads (c : condition) : Prop := forall n s, pr_cond c -> cfollow s ->
  rd (ERef "condition") [] (tcond n c ++ s) (VCond (re_cond c)) [] s.
Lemma exprs_loop_ok l : exprs_loop (map (fun e => VExpr (re_cexpr e)) l) = inl (map re_cexpr l).
Proof. induction l as [|x l IH]; [reflexivity|]. cbn [map exprs_loop]. now rewrite IH. Qed.
Lemma first_core n e : pr_cexpr true e -> tcexpr n e = ecore n e /\ re_cexpr (set_bool_op e no_op) = re_cexpr e.
Proof.
  intros H. destruct (pr_ebo _ _ H) as [N B]. split; [rewrite (tcexpr_core n e N); now rewrite B|]. rewrite (set_re e).
  destruct e; try congruence; cbn in *; unfold bare_bo; now rewrite B.
Qed.
Lemma cond_from c : Forall Ereads (exprs c) -> Creads c.
Proof.
  destruct c as [[|e l]]; cbn [exprs]; intros V n s H F; [contradiction|]. destruct H as [He Hl]. apply All_F in Hl.
  assert (A : Forall (fun e => pr_cexpr false e /\ Ereads e) l). { inversion V; subst. rewrite Forall_forall in *. auto. }
  apply Forall_inv in V. destruct (first_core n e He) as [E1 E2]. destruct (exprs_more n l s A F) as [M Fo].
  change (tcond n (Cond (e :: l))) with (tcexpr n e ++ flat_map (tcexpr n) l). rewrite <- app_assoc, E1.
  eapply rd_ref with (1 := find_condition). eapply rd_act.
  - eapply rds_cons; [eapply rd_lab, (V true n _ He Fo)|]. eapply rds_cons; [eapply rd_lab, rd_star, M|apply rds_nil].
  - intros t. rewrite E2. change (act_condition (VExpr (re_cexpr e)) (VList (map (fun e => VExpr (re_cexpr e)) l)) = RVal (VCond (Cond (re_cexpr e :: map re_cexpr l)))).
    unfold act_condition. cbn [iface_slice app exprs_loop]. now rewrite exprs_loop_ok.
Qed.
Lemma tcond_first n c s : pr_cond c -> firstc exprc (tcond n c ++ s).
Proof.
  destruct c as [[|e l]]; [intros []|]. intros [H _]. change (tcond n (Cond (e :: l))) with (tcexpr n e ++ flat_map (tcexpr n) l). rewrite (proj1 (first_core n e H)).
  apply firstc_app, firstc_app. eapply ecore_first, H.
Qed.
Lemma tcond_gap n c s : pr_cond c -> nogap (tcond n c ++ s).
Proof. intros H. eapply firstc_nogap; [exact exprc_plain|]. now apply tcond_first. Qed.
(** an operator that does not follow *)
Lemma bin_no op i v s s' rest en : rd (ERef "rvalue") [] i v [] s -> skip_to s s' -> (forall en, no op en s') ->
  nos ([ELab "lv" (ERef "rvalue"); gaps_e; warn_e; op] ++ rest) en i.
Proof.
  intros R K N. eapply nos_rd; [eapply rd_lab, R|]. destruct (skip_gaps s s' (bind "lv" v en) K) as (v1 & R1). eapply nos_rd; [exact R1|]. apply nos_warn, nos_here, N.
Qed.
(** binary expressions: neither parenthesis nor negation *)
Lemma paren_no i en : firstc rvc i -> no paren_e en i.
Proof. intros H. apply no_act, no_seq, nos_here, no_chr; [repeat constructor|]. eapply firstc_not; [|exact H]. intros c Hc I. apply (rvc_not c Hc). enum I; now left. Qed.
Lemma neg_no i en : firstc rvc i -> no (ERef "negativeExpression") en i.
Proof.
  intros H. apply no_ref with (1 := find_neg). assert (F : first_not [33%N] i). { eapply firstc_not; [|exact H]. intros c Hc I. apply (rvc_not c Hc). enum I; right; now left. }
  apply no_choice; [|apply no_choice; [|apply no_none]]; apply no_act, no_seq, nos_here, no_chr; try exact F; repeat constructor.
Qed.
Lemma rd_word w i j en es en' s : nogap (b w ++ SP :: i) -> nogap i -> Forall (fun r => r < 128)%N (b w) -> j = SP :: b w ++ SP :: i ->
  rds es en i en' s -> rds ([gaps_e; warn_e; lit w; gaps_e; warn_e] ++ es) en j en' s.
Proof.
  intros G1 G2 A -> R. destruct (skip_gaps (SP :: b w ++ SP :: i) _ en (skip_sp _ G1)) as (v1 & R1). destruct (skip_gaps (SP :: i) _ en (skip_sp i G2)) as (v2 & R2).
  eapply rds_cons; [exact R1|]. apply rds_warn. eapply rds_cons; [apply rd_lit; exact A|]. eapply rds_cons; [exact R2|]. apply rds_warn. exact R.
Qed.
Lemma rv_gap n r s : pr_rvalue r -> nogap (trvalue n r ++ s).
Proof. intros H. eapply firstc_nogap; [exact rvc_plain|]. apply firstc_app. now apply rv_first. Qed.
Lemma cmp_reads o s en : o <> CoUndef -> rd cmpop_e en (cmpop_string o ++ SP :: s) (VCmpOp (CmpOp o zero_pos)) en (SP :: s).
Proof.
  intros H. exists (cmpop_string o). split; [reflexivity|]. destruct o; try congruence; (eapply ok_act; [|reflexivity]); cbn [cmpop_string].
  - eapply ok_choice, ok_lit; repeat constructor.
  - eapply ok_next; [no_lits|]. eapply ok_choice, ok_lit; repeat constructor.
  - do 2 (eapply ok_next; [no_lits|]). eapply ok_choice, ok_lit; repeat constructor.
  - do 3 (eapply ok_next; [no_lits|]). eapply ok_choice, ok_lit; repeat constructor.
  - do 4 (eapply ok_next; [no_lits|]). eapply ok_choice, ok_chr; reflexivity.
  - do 4 (eapply ok_next; [no_lits|]). eapply ok_choice, ok_chr; reflexivity.
Qed.
Lemma re_reads o s en : o <> RoUndef -> rd reop_e en (reop_string o ++ s) (VReOp (ReOp o zero_pos)) en s.
Proof.
  intros H. exists (reop_string o). split; [reflexivity|]. destruct o; try congruence; (eapply ok_act; [|reflexivity]); cbn [reop_string].
  - eapply ok_choice, ok_lit; repeat constructor.
  - eapply ok_next; [no_lits|]. eapply ok_choice, ok_lit; repeat constructor.
Qed.
Lemma rv_delim s : efollow s -> delim s. Proof. now intros [D _]. Qed.
Lemma paren_core n c s i : Creads c -> pr_cond c -> i = 40%N :: tcond n c ++ 41%N :: s ->
  forall en, exists en', rds [lit "("; gaps_e; warn_e; ELab "cond" (ERef "condition"); gaps_e; warn_e] en i en' (41%N :: s) /\ lookup "cond" en' = VCond (re_cond c).
Proof.
  intros V H -> en. destruct (skip_gaps (tcond n c ++ 41%N :: s) _ en (skip_none _ (tcond_gap n c _ H))) as (v1 & R1).
  destruct (skip_gaps (41%N :: s) _ (bind "cond" (VCond (re_cond c)) en) (skip_none (41%N :: s) (nogap_plain 41%N s ltac:(apply plain_close)))) as (v2 & R2).
  eexists. split.
  - eapply rds_cons; [apply rd_chr; reflexivity|]. eapply rds_cons; [exact R1|]. apply rds_warn. eapply rds_cons; [eapply rd_lab, V; [exact H|apply cfollow_paren]|].
    eapply rds_cons; [exact R2|]. apply rds_warn, rds_nil.
  - reflexivity.
Qed.
Lemma rds_app es fs en i en1 j en' s : rds es en i en1 j -> rds fs en1 j en' s -> rds (es ++ fs) en i en' s.
Proof.
  intros (t & l & -> & H) K. revert fs en' s K. remember (t ++ j) as i eqn:E. revert t l en H i E. induction es as [|e es IH]; intros t l en H i E fs en' s K.
  - inversion H; subst. exact K.
  - inversion H; subst. rewrite <- app_assoc. cbn [app]. eapply rds_cons; [eexists; split; [reflexivity|eassumption]|]. eapply IH; eauto.
Qed.
(** what can follow an operand of a binary expression *)
Lemma op_gap w i : nogap (w ++ SP :: i) -> skip_to (SP :: w ++ SP :: i) (w ++ SP :: i).
Proof. apply skip_sp. Qed.
Theorem expr_reads e : Ereads e.
Proof.
  induction e as [|p bo c IH|p bo c IH|p bo x|p bo l r|p bo l r|p bo r|p bo l o r|p bo l o r] using cexpr_ind'; intros f n s H F; cbn [pr_cexpr] in H.
  - contradiction.
  - destruct H as [_ H]. apply cond_from in IH. unfold ecore. cbn [set_bool_op tcexpr re_cexpr no_op bo_op boolop_string app].
    rewrite <- !app_assoc. destruct (paren_core n c s _ IH H eq_refl []) as (en' & R & L).
    eapply rd_ref with (1 := find_expression). eapply rd_choice. eapply rd_act.
    + refine (rds_app _ [lit ")"] _ _ _ _ _ _ R _). eapply rds_cons; [apply rd_chr; reflexivity|apply rds_nil].
    + intros t. cbn [run_action]. rewrite L. reflexivity.
  - destruct H as [_ H]. apply cond_from in IH. unfold ecore. cbn [set_bool_op tcexpr re_cexpr no_op bo_op boolop_string app].
    rewrite <- !app_assoc. change (b "!(" ++ tcond n c ++ b ")" ++ s) with (33%N :: 40%N :: tcond n c ++ 41%N :: s).
    destruct (skip_gaps (40%N :: tcond n c ++ 41%N :: s) _ [] (skip_none (40%N :: tcond n c ++ 41%N :: s) (nogap_plain 40%N _ ltac:(apply plain_close)))) as (v1 & R1).
    destruct (paren_core n c s _ IH H eq_refl []) as (en' & R & L).
    eapply rd_ref with (1 := find_expression). eapply rd_next; [no_lits|]. eapply rd_choice, rd_ref with (1 := find_neg). eapply rd_choice. eapply rd_act.
    + eapply rds_cons; [apply rd_chr; reflexivity|]. eapply rds_cons; [exact R1|]. apply rds_warn.
      refine (rds_app _ [close ")" (fatal "expect closing parenthesis")] _ _ _ _ _ _ R _). eapply rds_cons; [apply close_reads; reflexivity|apply rds_nil].
    + intros t. cbn [run_action]. rewrite L. reflexivity.
  - destruct H as [_ [H _]]. unfold ecore. cbn [set_bool_op tcexpr re_cexpr no_op bo_op boolop_string app]. rewrite <- !app_assoc. change (b "!" ++ ?i) with (33%N :: i).
    destruct (selector_reads x s [] H) as (en' & R); [apply delim_first; [apply F|repeat constructor; differ]|].
    assert (E : exists t, selector_string x ++ s = 91%N :: t). { destruct H as [N _]. destruct x as [px [|e els]]; [now elim N|]. eexists. reflexivity. }
    destruct E as (t & E). rewrite E in *. destruct (skip_gaps (91%N :: t) _ [] (skip_none (91%N :: t) (nogap_plain 91%N _ ltac:(apply plain_close)))) as (v1 & R1).
    eapply rd_ref with (1 := find_expression). eapply rd_next; [no_lits|]. eapply rd_choice, rd_ref with (1 := find_neg). eapply rd_next.
    { apply no_act, no_seq. eapply nos_rd; [apply rd_chr; reflexivity|]. eapply nos_rd; [exact R1|]. apply nos_warn, nos_here. no_lits. }
    eapply rd_choice, rd_act; [eapply rds_cons; [apply rd_chr; reflexivity|]; eapply rds_cons; [exact R1|]; apply rds_warn; eapply rds_cons; [eapply rd_lab, R|apply rds_nil]|].
    intros u. reflexivity.
  - destruct H as (_ & Hl & Hr). unfold ecore. cbn [set_bool_op tcexpr re_cexpr no_op bo_op boolop_string app]. rewrite <- !app_assoc.
    destruct (rvalue_reads l n (b " in " ++ trvalue n r ++ s) Hl) as (v & R & E1); [now left|]. destruct (rvalue_reads r n s Hr (rv_delim s F)) as (w & Rw & E2).
    pose proof (firstc_app _ _ (b " in " ++ trvalue n r ++ s) (rv_first l n Hl)) as Fl.
    eapply rd_ref with (1 := find_expression). eapply rd_next; [now apply paren_no|]. eapply rd_next; [now apply neg_no|]. eapply rd_choice, rd_ref with (1 := find_in). eapply rd_act.
    + eapply rds_cons; [eapply rd_lab, R|].
      destruct (skip_gaps (b " in " ++ trvalue n r ++ s) _ (bind "lv" v []) (skip_sp (b "in " ++ trvalue n r ++ s) (nogap_plain 105%N _ ltac:(split; [reflexivity|differ])))) as (v1 & R1).
      destruct (skip_gaps (b " " ++ trvalue n r ++ s) _ (bind "lv" v []) (skip_sp _ (rv_gap n r s Hr))) as (v2 & R2).
      eapply rds_cons; [exact R1|]. apply rds_warn. eapply rds_cons; [eapply rd_choice with (en' := []), (rd_lit _ (b "in")); repeat constructor|]. eapply rds_cons; [exact R2|]. apply rds_warn.
      eapply rds_cons; [eapply rd_lab, Rw|apply rds_nil].
    + intros t. change (act_in (ExIn zero_pos no_op) v w = RVal (VExpr (ExIn zero_pos no_op (re_rvalue l) (re_rvalue r)))). unfold act_in. now rewrite E1, E2.
  - destruct H as (_ & Hl & Hr). unfold ecore. cbn [set_bool_op tcexpr re_cexpr no_op bo_op boolop_string app]. rewrite <- !app_assoc.
    destruct (rvalue_reads l n (b " not in " ++ trvalue n r ++ s) Hl) as (v & R & E1); [now left|]. destruct (rvalue_reads r n s Hr (rv_delim s F)) as (w & Rw & E2).
    pose proof (firstc_app _ _ (b " not in " ++ trvalue n r ++ s) (rv_first l n Hl)) as Fl.
    assert (K : skip_to (b " not in " ++ trvalue n r ++ s) (b "not in " ++ trvalue n r ++ s)) by exact (skip_sp (b "not in " ++ trvalue n r ++ s) (nogap_plain 110%N _ ltac:(split; [reflexivity|differ]))).
    eapply rd_ref with (1 := find_expression). eapply rd_next; [now apply paren_no|]. eapply rd_next; [now apply neg_no|].
    eapply rd_next; [apply no_ref with (1 := find_in), no_act, no_seq; exact (bin_no in_op_e _ v _ _ [gaps_e; warn_e; ELab "rv" (ERef "rvalue")] [] R K ltac:(intros en; no_lits))|].
    eapply rd_choice, rd_ref with (1 := find_notin). eapply rd_act.
    + eapply rds_cons; [eapply rd_lab, R|].
      destruct (skip_gaps (b " not in " ++ trvalue n r ++ s) _ (bind "lv" v []) K) as (v1 & R1).
      destruct (skip_gaps (b " " ++ trvalue n r ++ s) _ (bind "lv" v []) (skip_sp _ (rv_gap n r s Hr))) as (v2 & R2).
      destruct (skip_gaps (b "in " ++ trvalue n r ++ s) _ [] (skip_none (b "in " ++ trvalue n r ++ s) (nogap_plain 105%N _ ltac:(split; [reflexivity|differ])))) as (v3 & R3).
      assert (O : exists u, rd not_in_op_e (bind "lv" v []) (b "not in " ++ trvalue n r ++ s) u (bind "lv" v []) (b " " ++ trvalue n r ++ s)).
      { assert (A : rds [lit "not "; gaps_e; warn_e; lit "in"] [] (b "not in " ++ trvalue n r ++ s) [] (b " " ++ trvalue n r ++ s)).
        { eapply rds_cons; [apply (rd_lit _ (b "not ")); repeat constructor|]. eapply rds_cons; [exact R3|]. apply rds_warn. eapply rds_cons; [apply (rd_lit _ (b "in")); repeat constructor|apply rds_nil]. }
        destruct A as (t & vs & Et & A). rewrite Et. exists (VList vs). eapply rd_choice with (en' := []). exists t. split; [reflexivity|]. apply ok_seq. exact A. }
      destruct O as (u & O). eapply rds_cons; [exact R1|]. apply rds_warn. eapply rds_cons; [exact O|]. eapply rds_cons; [exact R2|]. apply rds_warn.
      eapply rds_cons; [eapply rd_lab, Rw|apply rds_nil].
    + intros t. change (act_in (ExNotIn zero_pos no_op) v w = RVal (VExpr (ExNotIn zero_pos no_op (re_rvalue l) (re_rvalue r)))). unfold act_in. now rewrite E1, E2.
  - destruct H as (_ & Hr). unfold ecore. cbn [set_bool_op tcexpr re_cexpr no_op bo_op boolop_string app].
    destruct (rvalue_reads r n s Hr (rv_delim s F)) as (v & R & E1). pose proof (firstc_app _ _ s (rv_first r n Hr)) as Fl. destruct F as (D & s' & K & N).
    eapply rd_ref with (1 := find_expression). eapply rd_next; [now apply paren_no|]. eapply rd_next; [now apply neg_no|].
    eapply rd_next; [apply no_ref with (1 := find_in), no_act, no_seq; exact (bin_no in_op_e _ v _ _ [gaps_e; warn_e; ELab "rv" (ERef "rvalue")] [] R K ltac:(intros en; apply N))|].
    eapply rd_next; [apply no_ref with (1 := find_notin), no_act, no_seq; exact (bin_no not_in_op_e _ v _ _ [gaps_e; warn_e; ELab "rv" (ERef "rvalue")] [] R K ltac:(intros en; apply N))|].
    eapply rd_next; [apply no_ref with (1 := find_cmp), no_act, no_seq; exact (bin_no (ELab "co" cmpop_e) _ v _ _ [gaps_e; warn_e; ELab "rv" (ERef "rvalue")] [] R K ltac:(intros en; apply no_lab, N))|].
    eapply rd_next; [apply no_ref with (1 := find_re), no_act, no_seq; exact (bin_no (ELab "ro" reop_e) _ v _ _ [gaps_e; warn_e; ELab "rv" (EChoice [string_e; regexp_e])] [] R K ltac:(intros en; apply no_lab, N))|].
    eapply rd_choice, rd_act1; [eapply rd_lab, R|]. intros t. change (act_rvalue zero_pos v = RVal (VExpr (ExRv zero_pos no_op (re_rvalue r)))). unfold act_rvalue. now rewrite E1.
  - destruct H as (_ & Hl & Ho & Hr). unfold ecore. cbn [set_bool_op tcexpr re_cexpr no_op bo_op boolop_string app]. rewrite <- !app_assoc. change (b " " ++ ?i) with (SP :: i).
    destruct (rvalue_reads l n (SP :: cmpop_string (co_op o) ++ SP :: trvalue n r ++ s) Hl) as (v & R & E1); [now left|]. destruct (rvalue_reads r n s Hr (rv_delim s F)) as (w & Rw & E2).
    pose proof (firstc_app _ _ (SP :: cmpop_string (co_op o) ++ SP :: trvalue n r ++ s) (rv_first l n Hl)) as Fl.
    assert (K : skip_to (SP :: cmpop_string (co_op o) ++ SP :: trvalue n r ++ s) (cmpop_string (co_op o) ++ SP :: trvalue n r ++ s)).
    { apply skip_sp. destruct (co_op o); try congruence; apply nogap_plain; (split; [reflexivity|differ]). }
    eapply rd_ref with (1 := find_expression). eapply rd_next; [now apply paren_no|]. eapply rd_next; [now apply neg_no|].
    eapply rd_next; [apply no_ref with (1 := find_in), no_act, no_seq; refine (bin_no in_op_e _ v _ _ [gaps_e; warn_e; ELab "rv" (ERef "rvalue")] [] R K _); intros en; destruct (co_op o); try congruence; no_lits|].
    eapply rd_next; [apply no_ref with (1 := find_notin), no_act, no_seq; refine (bin_no not_in_op_e _ v _ _ [gaps_e; warn_e; ELab "rv" (ERef "rvalue")] [] R K _); intros en; destruct (co_op o); try congruence; no_lits|].
    eapply rd_choice, rd_ref with (1 := find_cmp). eapply rd_act.
    + eapply rds_cons; [eapply rd_lab, R|].
      destruct (skip_gaps _ _ (bind "lv" v []) K) as (v1 & R1).
      destruct (skip_gaps (SP :: trvalue n r ++ s) _ (bind "co" (VCmpOp (CmpOp (co_op o) zero_pos)) (bind "lv" v [])) (skip_sp _ (rv_gap n r s Hr))) as (v2 & R2).
      eapply rds_cons; [exact R1|]. apply rds_warn. eapply rds_cons; [eapply rd_lab, cmp_reads; exact Ho|]. eapply rds_cons; [exact R2|]. apply rds_warn.
      eapply rds_cons; [eapply rd_lab, Rw|apply rds_nil].
    + intros t. change (act_compare zero_pos v (VCmpOp (CmpOp (co_op o) zero_pos)) w = RVal (VExpr (ExCmp zero_pos no_op (re_rvalue l) (bare_co o) (re_rvalue r)))). unfold act_compare. now rewrite E1, E2.
  - destruct H as (_ & Hl & Ho & Hr). unfold ecore. cbn [set_bool_op tcexpr re_cexpr no_op bo_op boolop_string app]. rewrite <- !app_assoc. change (b " " ++ ?i) with (SP :: i).
    destruct (rvalue_reads l n (SP :: reop_string (ro_op o) ++ SP :: strorre_string r ++ s) Hl) as (v & R & E1); [now left|].
    pose proof (firstc_app _ _ (SP :: reop_string (ro_op o) ++ SP :: strorre_string r ++ s) (rv_first l n Hl)) as Fl.
    assert (K : skip_to (SP :: reop_string (ro_op o) ++ SP :: strorre_string r ++ s) (reop_string (ro_op o) ++ SP :: strorre_string r ++ s)).
    { apply skip_sp. destruct (ro_op o); try congruence; apply nogap_plain; (split; [reflexivity|differ]). }
    assert (W : exists w, rd (EChoice [string_e; regexp_e]) [] (strorre_string r ++ s) w [] s /\ as_strorre w = Some (bare_strorre r) /\ nogap (strorre_string r ++ s)).
    { destruct r as [|x|x]; cbn [pr_strorre strorre_string bare_strorre] in *; [contradiction| |].
      - destruct (cstr_reads x s Hr) as (en' & R0). eexists. split; [eapply rd_choice, R0|]. split; [reflexivity|]. eapply firstc_nogap; [|apply firstc_app, cstr_first, Hr]. intros c I. enum I; apply plain_close.
      - eexists. split; [eapply rd_next; [|eapply rd_choice, (regexp_rd x s []), Hr]|]. { apply string_no. differ. } split; [reflexivity|]. apply nogap_plain. split; [reflexivity|differ]. }
    destruct W as (w & Rw & E2 & G2).
    eapply rd_ref with (1 := find_expression). eapply rd_next; [now apply paren_no|]. eapply rd_next; [now apply neg_no|].
    eapply rd_next; [apply no_ref with (1 := find_in), no_act, no_seq; refine (bin_no in_op_e _ v _ _ [gaps_e; warn_e; ELab "rv" (ERef "rvalue")] [] R K _); intros en; destruct (ro_op o); try congruence; no_lits|].
    eapply rd_next; [apply no_ref with (1 := find_notin), no_act, no_seq; refine (bin_no not_in_op_e _ v _ _ [gaps_e; warn_e; ELab "rv" (ERef "rvalue")] [] R K _); intros en; destruct (ro_op o); try congruence; no_lits|].
    eapply rd_next; [apply no_ref with (1 := find_cmp), no_act, no_seq; refine (bin_no (ELab "co" cmpop_e) _ v _ _ [gaps_e; warn_e; ELab "rv" (ERef "rvalue")] [] R K _); intros en; destruct (ro_op o); try congruence; apply no_lab; no_lits|].
    eapply rd_choice, rd_ref with (1 := find_re). eapply rd_act.
    + eapply rds_cons; [eapply rd_lab, R|].
      destruct (skip_gaps _ _ (bind "lv" v []) K) as (v1 & R1).
      destruct (skip_gaps (SP :: strorre_string r ++ s) _ (bind "ro" (VReOp (ReOp (ro_op o) zero_pos)) (bind "lv" v [])) (skip_sp _ G2)) as (v2 & R2).
      eapply rds_cons; [exact R1|]. apply rds_warn. eapply rds_cons; [eapply rd_lab, re_reads; exact Ho|]. eapply rds_cons; [exact R2|]. apply rds_warn.
      eapply rds_cons; [eapply rd_lab, Rw|apply rds_nil].
    + intros t. change (act_regexp_expr zero_pos v (VReOp (ReOp (ro_op o) zero_pos)) w = RVal (VExpr (ExRe zero_pos no_op (re_rvalue l) (bare_ro o) (bare_strorre r)))). unfold act_regexp_expr. now rewrite E1, E2.
Qed.
Theorem cond_reads c : Creads c.
Proof. apply cond_from. destruct c as [l]. cbn. apply Forall_forall. intros e _. apply expr_reads. Qed.
(** no condition starts with such a character *)
Lemma condition_no s en : no_rv s -> first_not [40; 33]%N s -> no (ERef "condition") en s.
Proof.
  intros H K. pose proof (fun en => rvalue_no s en H) as N. apply no_ref with (1 := find_condition), no_act, no_seq, nos_here, no_lab, no_ref with (1 := find_expression).
  assert (F : forall c, In c [40; 33]%N -> first_not [c] s). { destruct s as [|c0 s]; [intros; exact Logic.I|]. intros c I [E|[]]. apply K. now subst. }
  apply no_choice; [apply no_act, no_seq, nos_here, no_chr; [repeat constructor|apply F; now left]|].
  apply no_choice; [apply no_ref with (1 := find_neg); apply no_choice; [|apply no_choice; [|apply no_none]]; (apply no_act, no_seq, nos_here, no_chr; [repeat constructor|apply F; right; now left])|].
  apply no_choice; [apply no_ref with (1 := find_in), no_act, no_seq, nos_here, no_lab, N|].
  apply no_choice; [apply no_ref with (1 := find_notin), no_act, no_seq, nos_here, no_lab, N|].
  apply no_choice; [apply no_ref with (1 := find_cmp), no_act, no_seq, nos_here, no_lab, N|].
  apply no_choice; [apply no_ref with (1 := find_re), no_act, no_seq, nos_here, no_lab, N|].
  apply no_choice; [apply no_act, no_lab, N|apply no_none].
Qed.
