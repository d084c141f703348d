(** Conditions in any layout, read with the option IgnoreComments. *)
From Coq Require Import List NArith Bool String Arith Lia.
From Verif Require Import Bytes Utf8 F64 Ast Peg Actions Engine AstPrint AstInd EscapeFacts QuoteFacts SimpleFacts PosFacts Matches PegSem LexFacts Tree Rules Bare Reads Lines Layout
  ReadLex ReadGap ReadCom ReadVal ReadCond Spelled Written FreeLex FreeVal.
Import ListNotations.

(** ** Operands *)
Definition rfollow (s : bytes) : Prop := dstop s /\ first_not [46; 91]%N s.
Lemma rfollow_gap t c r : gap_run t (c :: r) -> (c < 128)%N -> ~ digit c -> ~ In c [46; 91]%N -> rfollow (t ++ c :: r).
Proof.
  intros G A D I. split; [apply gap_stop; [exact G|reflexivity|]|apply gap_first; [exact G|reflexivity|exact I]].
  split; [exact A|]. apply class_miss. cls. unfold digit in D. lia.
Qed.
Lemma cut_mark t : (exists u c v, t = u ++ c :: v /\ Forall (fun x => mark x = false) u /\ mark c = true) \/ Forall (fun x => mark x = false) t.
Proof.
  induction t as [|x t IH]; [now right|]. destruct (mark x) eqn:E; [left; exists [], x, t; auto|].
  destruct IH as [(u & c & v & -> & U & C)|F]; [left; exists (x :: u), c, v; split; [reflexivity|auto]|right; auto].
Qed.
Lemma nosel_no i en : (exists t, i = 91%N :: t) -> ~ selector_start i -> no selector_e en i.
Proof.
  intros (t & ->) H. apply no_act, no_lab, no_plus, no_act, no_seq. eapply nos_rd; [apply rd_chr; reflexivity|].
  assert (Q : forall u, Forall (fun x => mark x = false) u -> Forall (fun x => ~ In x [93; 91; 44]%N) u).
  { intros u U. eapply Forall_impl; [|exact U]. cbn beta. intros x Hx I. apply mark_in in I. congruence. }
  destruct (cut_mark t) as [(u & c & v & -> & U & C)|F].
  - apply mark_in in C. destruct (okt_runes (ign := true) "[^][,]" [93; 91; 44]%N c u v) as (vs & K & Nv); [repeat constructor|exact C|now apply Q|].
    destruct u as [|x u].
    + apply nos_here, no_plus. apply no_stop. cbn [app]. split; [|now apply class_negated]. clear -C. enum C; reflexivity.
    + destruct vs as [|y vs]; [exfalso; now apply Nv|]. eapply nos_rd; [apply rd_plus; exists (x :: u); split; [reflexivity|exact K]|].
      apply nos_here, no_choice; [|apply no_choice; [apply no_soft|apply no_none]]. apply no_chr; [repeat constructor|]. intros [E|[]]. subst c.
      apply H. exists (x :: u), v. split; [reflexivity|]. split; [discriminate|]. eapply Forall_impl; [|exact (Q _ U)]. intros z Z I. apply Z. cbn in *. tauto.
  - destruct (runes_end "[^][,]" [93; 91; 44]%N t) as (vs & K); [repeat constructor|now apply Q|].
    destruct vs as [|y vs].
    + assert (Et : t = []) by (inversion K; reflexivity). subst t. apply nos_here, no_plus. apply no_class. now left.
    + eapply nos_rd; [apply rd_plus; exists t; split; [symmetry; apply app_nil_r|exact K]|].
      apply nos_here, no_choice; [|apply no_choice; [apply no_soft|apply no_none]]. apply no_chr; [repeat constructor|exact Logic.I].
Qed.
Lemma xcstr_reads s r : cstr_ok s -> exists en', rd string_e [] (sa_value_string s ++ r) (VAttr (AtStr (shape_str s))) en' r.
Proof.
  intros (N & H & NB & C). assert (E : shape_str s = StrAttr zero_pos [] (sa_val s) (sa_type s) []) by (unfold shape_str; now rewrite N). rewrite E. clear E.
  unfold sa_value_string. destruct (sa_type s); cbn [str_ok sat_string] in *; try congruence; try contradiction.
  - destruct (quoted_reads_rd DQ (sa_val s) r) as (en' & R); [now left|exact H|]. exists en'. rewrite <- !app_assoc. exact R.
  - destruct (quoted_reads_rd SQ (sa_val s) r) as (en' & R); [right; now left|exact H|]. exists en'. rewrite <- !app_assoc. exact R.
Qed.
Lemma xregexp_rd x s en : re_ok x -> rd regexp_e en (regexp_string x ++ s) (VRe (shape_re x)) en s.
Proof. intros H. exists ([SLASH] ++ re_text x ++ [SLASH]). split; [reflexivity|]. now apply regexp_reads. Qed.
Lemma sel_text x : List.concat (map selel_string (sel_els x)) = selector_string x.
Proof. unfold selector_string. symmetry. apply flat_map_concat_map. Qed.
Lemma sel_bracket x s : sel_ok x -> exists t, selector_string x ++ s = 91%N :: t.
Proof. intros [N _]. destruct x as [px [|e els]]; [now elim N|]. eexists. reflexivity. Qed.
Ltac no_lits := repeat first [apply no_act | apply no_soft | apply no_none | apply no_choice
  | apply no_seq, nos_here | apply no_lit; [repeat constructor|intros ? ?; discriminate] | apply no_stop; split; reflexivity].
Section Conditions.
Context {LO : losing} {HLO : lost_reads LO}.
Lemma xrv_first r i s : wf_rvalue r -> written (pc_rvalue r) i s -> firstc rvc i.
Proof.
  destruct r as [|x|x|x|p m l c f|x]; cbn [wf_rvalue pc_rvalue]; intros H W.
  - contradiction.
  - destruct W as (u & -> & _). apply firstc_app. eapply firstc_imp; [|now apply cstr_first]. intros c I. left. enum I; [now left|right; now left].
  - destruct W as (t & u & -> & T & _). apply firstc_app. eapply firstc_imp; [|now apply number_first]. intros c I. now right.
  - destruct W as (u & -> & _). rewrite sel_text. destruct (sel_bracket x u H) as (t & ->). eexists _, _. split; [reflexivity|]. left. right. right. now left.
  - destruct W as (_ & u & -> & _). eexists _, _. split; [reflexivity|]. left. right. right. now left.
  - destruct W as (u & -> & _). eexists _, _. split; [reflexivity|]. left. right. right. right. now left.
Qed.
Lemma xrv_gap r i s : wf_rvalue r -> written (pc_rvalue r) i s -> nogap i.
Proof. intros H W. eapply firstc_nogap; [exact rvc_plain|]. eapply xrv_first; eauto. Qed.
Lemma xrvalue_reads r i s : wf_rvalue r -> written (pc_rvalue r) i s -> rfollow s -> exists v, rd (ERef "rvalue") [] i v [] s /\ as_rvalue v = Some (shape_rvalue r).
Proof.
  intros H W [D F]. assert (Fs : forall c, In c [46; 91]%N -> first_not [c] s). { destruct s as [|c0 s]; [intros; exact Logic.I|]. intros c I [E|[]]. apply F. now subst. }
  destruct r as [|x|x|x|p m l c f|x]; cbn [wf_rvalue pc_rvalue shape_rvalue] in *.
  - contradiction.
  - destruct W as (u & -> & ->). destruct (xcstr_reads x s H) as (en' & R). eexists. split; [eapply rd_ref with (1 := find_rvalue); eapply rd_choice, R|reflexivity].
  - destruct W as (t & u & -> & T & P & ->). destruct H as (N & _ & C). eexists. split; [eapply rd_ref with (1 := find_rvalue); eapply rd_next; [|eapply rd_choice, number_stop; [exact T|exact P|exact D|apply Fs; now left]]|].
    + apply string_no. apply firstc_not with (P := fun c => digit c \/ c = 45%N); [intros c0 [Hc|Hc] I; enum I; unfold digit, DQ, SQ in *; lia|]. apply firstc_app, number_first, T.
    + unfold shape_num. rewrite N. reflexivity.
  - destruct W as (u & -> & ->). rewrite sel_text. destruct (selector_reads x s [] H) as (en' & R); [apply Fs; right; now left|].
    destruct (sel_bracket x s H) as (t & E). rewrite E in *. exists (VSel (shape_sel x)). split; [eapply rd_ref with (1 := find_rvalue)|reflexivity].
    apply rd_next; [apply string_no; differ|]. apply rd_next; [apply number_no; [differ|split; reflexivity]|]. eapply rd_choice, R.
  - destruct H as (-> & -> & Hf & Hl). destruct W as (Ns & W).
    assert (A : Forall (fun a => wf_attr false a /\ Vx a) l). { apply All_Forall in Hl. rewrite Forall_forall in *. intros a Ha. split; [auto|apply xvalue_reads]. }
    destruct (xarray l p [] [] f i s A W) as (en' & R). assert (E : exists t, i = 91%N :: t) by (destruct W as (u & -> & _); eexists; reflexivity).
    pose proof (nosel_no i [] E Ns) as Sel. destruct E as (t & ->).
    eexists. split; [eapply rd_ref with (1 := find_rvalue)|].
    + apply rd_next; [apply string_no; differ|]. apply rd_next; [apply number_no; [differ|split; reflexivity]|]. apply rd_next; [exact Sel|]. eapply rd_choice, rd_ref with (1 := find_array), R.
    + reflexivity.
  - destruct W as (u & -> & ->). pose proof (xregexp_rd x s [] H) as R.
    assert (E : exists t, regexp_string x ++ s = 47%N :: t) by (eexists; reflexivity). destruct E as (t & E). rewrite E in *.
    exists (VRe (shape_re x)). split; [eapply rd_ref with (1 := find_rvalue)|reflexivity].
    apply rd_next; [apply string_no; differ|]. apply rd_next; [apply number_no; [differ|split; reflexivity]|]. apply rd_next; [apply selector_no; differ|].
    apply rd_next; [apply no_ref with (1 := find_array), no_act, no_seq, nos_here, no_chr; [repeat constructor|differ]|]. eapply rd_choice, R.
Qed.
Lemma xnumber_no_minus s en : stop [] [(48, 57)]%N false s -> match s with 45%N :: s' => stop [] [(48, 57)]%N false s' | _ => True end -> no number_e en s.
Proof.
  intros K M. destruct s as [|c s]; [now apply number_no|]. destruct (N.eq_dec c 45) as [-> | D]; [|apply number_no; [cbn; intuition congruence|exact K]].
  apply no_act, no_seq. eapply nos_rd; [eapply rd_opt, rd_chr; reflexivity|]. apply nos_here, no_plus, no_stop, M.
Qed.
Lemma xrvalue_no s en : no_rv s -> no (ERef "rvalue") en s.
Proof.
  intros (H & K & M). assert (S : forall cs, incl cs [DQ; SQ; 91; 47]%N -> first_not cs s). { intros cs I. destruct s; [exact Logic.I|]. intros X. apply H. now apply I. }
  apply no_ref with (1 := find_rvalue). apply no_choice; [apply string_no, S; intros x X; cbn in *; intuition|].
  apply no_choice; [now apply xnumber_no_minus|]. apply no_choice; [apply selector_no, S; intros x X; cbn in *; intuition|].
  apply no_choice; [apply no_ref with (1 := find_array), no_act, no_seq, nos_here, no_chr; [repeat constructor|apply S; intros x X; cbn in *; intuition]|].
  apply no_choice; [apply regexp_no, S; intros x X; cbn in *; intuition|]. apply no_choice; [apply no_soft|apply no_none].
Qed.

(** ** Expressions *)
Definition xno_ops (s : bytes) : Prop := forall en, no in_op_e en s /\ no not_in_op_e en s /\ no cmpop_e en s /\ no reop_e en s.
Definition xefollow (s : bytes) : Prop := rfollow s /\ exists s', xskip s s' /\ xno_ops s'.
Definition xcfollow (s : bytes) : Prop := rfollow s /\ exists s', xskip s s' /\ xno_ops s' /\ forall en, no boolop_e en s'.
Lemma xcfollow_e s : xcfollow s -> xefollow s.
Proof. intros (D & s' & K & H & _). split; [exact D|]. exists s'. auto. Qed.
Lemma xcfollow_close t c s : In c [123; 41]%N -> gap_run t (c :: s) -> xcfollow (t ++ c :: s).
Proof.
  intros I G. split; [apply rfollow_gap; [exact G| | |]; enum I; try reflexivity; unfold digit; try lia; differ|]. exists (c :: s).
  split; [apply gap_xskip; [exact G|]; apply nogap_plain; enum I; split; try reflexivity; differ|]. enum I; (split; [intros en; repeat split|intros en]); no_lits.
Qed.
Lemma xboolop_reads o s en : o <> BoNone -> o <> BoUndef -> rd boolop_e en (boolop_word o ++ s) (VBoolOp (BoolOp o zero_pos)) en s.
Proof.
  intros H1 H2. exists (boolop_word o). split; [reflexivity|]. destruct o; try congruence; (eapply ok_act; [|reflexivity]); cbn [boolop_word].
  - eapply ok_choice, ok_lit. repeat constructor.
  - eapply ok_next; [no_lits|]. eapply ok_choice, ok_lit. repeat constructor.
  - do 2 (eapply ok_next; [no_lits|]). eapply ok_choice, ok_lit. repeat constructor.
  - do 3 (eapply ok_next; [no_lits|]). eapply ok_choice, ok_lit. repeat constructor.
Qed.
Lemma xefollow_op o t u : o <> BoNone -> o <> BoUndef -> gap_run t (boolop_word o ++ u) -> xefollow (t ++ boolop_word o ++ u) /\ nogap (boolop_word o ++ u).
Proof.
  intros H1 H2 G. assert (N : nogap (boolop_word o ++ u)) by (destruct o; try congruence; apply nogap_plain; (split; [reflexivity|differ])).
  split; [|exact N]. split; [destruct o; try congruence; apply rfollow_gap; try exact G; try reflexivity; unfold digit; try lia; differ|].
  exists (boolop_word o ++ u). split; [now apply gap_xskip|]. intros en. destruct o; try congruence; repeat split; no_lits.
Qed.
Lemma wf_ebo f e : wf_cexpr f e -> e <> ExNil /\ bo_ok f (ebo e).
Proof. destruct e; cbn; intros H; try contradiction; (split; [discriminate|tauto]). Qed.
Lemma bo_of_ebo e : e <> ExNil -> bo_of e = ebo e.
Proof. destruct e; try congruence; reflexivity. Qed.
Lemma xbody_first f e i s : wf_cexpr f e -> written (pc_body e) i s -> firstc exprc i.
Proof.
  destruct e; cbn [wf_cexpr pc_body]; intros H W; try contradiction.
  1-3: (destruct W as (u & -> & _); eexists _, _; split; [reflexivity|right; cbv; auto]).
  all: try (apply written_app in W as (j & W & _)); (eapply firstc_imp; [intros c Hc; left; exact Hc|]); eapply xrv_first; [|exact W]; apply H.
Qed.
Lemma xbody_gap f e i s : wf_cexpr f e -> written (pc_body e) i s -> nogap i.
Proof. intros H W. eapply firstc_nogap; [exact exprc_plain|]. eapply xbody_first; eauto. Qed.
Definition Ex (e : cexpr) : Prop := forall f i s, wf_cexpr f e -> written (pc_body e) i s -> xefollow s ->
  rd (ERef "expression") [] i (VExpr (shape_cexpr (set_bool_op e no_op))) [] s.
Lemma set_shape e : shape_cexpr e = set_bool_op (shape_cexpr (set_bool_op e no_op)) (shape_bo (ebo e)).
Proof. destruct e; reflexivity. Qed.
Lemma pc_more e : wf_cexpr false e -> pc_cexpr e = [PHid; PTok (boolop_word (bo_op (ebo e))); PHid] ++ pc_body e.
Proof.
  intros H. destruct (wf_ebo _ _ H) as [N [B1 B2]]. unfold pc_cexpr. rewrite (bo_of_ebo e N). destruct (bo_op (ebo e)); congruence || reflexivity.
Qed.
Lemma pc_first e : wf_cexpr true e -> pc_cexpr e = pc_body e.
Proof. intros H. destruct (wf_ebo _ _ H) as [N B]. unfold pc_cexpr. rewrite (bo_of_ebo e N). cbn in B. now rewrite B. Qed.
Lemma xexprs_more l : Forall (fun e => wf_cexpr false e /\ Ex e) l -> forall i s, written (flat_map pc_cexpr l) i s -> xcfollow s ->
  rdt more_expr_e i (map (fun e => VExpr (shape_cexpr e)) l) s /\ xefollow i.
Proof.
  induction 1 as [|x l [Hx Vxx] H IH]; intros i s W K.
  - cbn in W. subst i. split; [|now apply xcfollow_e]. destruct K as (D & s' & K & _ & N). apply rdt_stop, no_act, no_seq.
    destruct (xgaps s s' [] K) as (v & R). eapply nos_rd; [exact R|]. apply nos_warn, nos_here, no_lab, N.
  - cbn [flat_map] in W. rewrite (pc_more x Hx), <- app_assoc in W. destruct W as (t & u & -> & G1 & u1 & -> & t2 & u2 & -> & G2 & W).
    change (written (pc_body x ++ flat_map pc_cexpr l) u2 s) in W. apply written_app in W as (j & Wx & W). destruct (IH j s W K) as [R F].
    destruct (wf_ebo _ _ Hx) as [N [B1 B2]]. destruct (xefollow_op _ _ _ B1 B2 G1) as [E G]. split; [|exact E].
    destruct (xgaps _ _ [] (gap_xskip _ _ G1 G)) as (v1 & R1).
    destruct (xgaps _ _ (bind "bo" (VBoolOp (shape_bo (ebo x))) []) (gap_xskip _ _ G2 (xbody_gap _ _ _ _ Hx Wx))) as (v2 & R2).
    eapply rdt_more; [|exact R]. eapply rd_act.
    + eapply rds_cons; [exact R1|]. apply rds_warn. eapply rds_cons; [eapply rd_lab, xboolop_reads; assumption|]. eapply rds_cons; [exact R2|]. apply rds_warn.
      eapply rds_cons; [eapply rd_lab, (Vxx false _ _ Hx Wx F)|apply rds_nil].
    + intros t0. cbn [run_action]. rewrite (set_shape x). reflexivity.
Qed.
Definition Cx (c : condition) : Prop := forall i s, wf_cond c -> written (pc_cond c) i s -> xcfollow s ->
  rd (ERef "condition") [] i (VCond (shape_cond c)) [] s.
Lemma xexprs_loop l : exprs_loop (map (fun e => VExpr (shape_cexpr e)) l) = inl (map shape_cexpr l).
Proof. induction l as [|x l IH]; [reflexivity|]. cbn [map exprs_loop]. now rewrite IH. Qed.
Lemma pc_cond_cons e l : wf_cexpr true e -> pc_cond (Cond (e :: l)) = pc_body e ++ flat_map pc_cexpr l.
Proof. intros H. change (pc_cond (Cond (e :: l))) with (pc_cexpr e ++ flat_map pc_cexpr l). now rewrite (pc_first e H). Qed.
Lemma xcond_from c : Forall Ex (exprs c) -> Cx c.
Proof.
  destruct c as [[|e l]]; cbn [exprs]; intros V i s H W F; [contradiction|]. destruct H as [He Hl]. apply All_Forall in Hl.
  assert (A : Forall (fun e => wf_cexpr false e /\ Ex e) l). { inversion V; subst. rewrite Forall_forall in *. auto. }
  apply Forall_inv in V. rewrite (pc_cond_cons e l He) in W. apply written_app in W as (j & We & W). destruct (xexprs_more l A j s W F) as [M Fo].
  assert (E : shape_cexpr (set_bool_op e no_op) = shape_cexpr e). { destruct (wf_ebo _ _ He) as [N B]. cbn in B. rewrite (set_shape e). destruct e; try congruence; cbn in *; unfold shape_bo; now rewrite B. }
  eapply rd_ref with (1 := find_condition). eapply rd_act.
  - eapply rds_cons; [eapply rd_lab, (V true _ _ He We Fo)|]. eapply rds_cons; [eapply rd_lab, rd_star, M|apply rds_nil].
  - intros t. rewrite E. change (act_condition (VExpr (shape_cexpr e)) (VList (map (fun e => VExpr (shape_cexpr e)) l)) = RVal (VCond (Cond (shape_cexpr e :: map shape_cexpr l)))).
    unfold act_condition. cbn [iface_slice app exprs_loop]. now rewrite xexprs_loop.
Qed.
Lemma xcond_first c i s : wf_cond c -> written (pc_cond c) i s -> firstc exprc i.
Proof.
  destruct c as [[|e l]]; [intros []|]. intros [H _] W. rewrite (pc_cond_cons e l H) in W. apply written_app in W as (j & W & _). eapply xbody_first; eauto.
Qed.
Lemma xcond_gap c i s : wf_cond c -> written (pc_cond c) i s -> nogap i.
Proof. intros H W. eapply firstc_nogap; [exact exprc_plain|]. eapply xcond_first; eauto. Qed.
(** an operator that does not follow *)
Lemma xbin_no op i v s s' rest en : rd (ERef "rvalue") [] i v [] s -> xskip s s' -> (forall en, no op en s') ->
  nos ([ELab "lv" (ERef "rvalue"); gaps_e; warn_e; op] ++ rest) en i.
Proof.
  intros R K N. eapply nos_rd; [eapply rd_lab, R|]. destruct (xgaps s s' (bind "lv" v en) K) as (v1 & R1). eapply nos_rd; [exact R1|]. apply nos_warn, nos_here, N.
Qed.
Lemma xparen_no i en : firstc rvc i -> no paren_e en i.
Proof. intros H. apply no_act, no_seq, nos_here, no_chr; [repeat constructor|]. eapply firstc_not; [|exact H]. intros c Hc I. apply (rvc_not c Hc). enum I; now left. Qed.
Lemma xneg_no i en : firstc rvc i -> no (ERef "negativeExpression") en i.
Proof.
  intros H. apply no_ref with (1 := find_neg). assert (F : first_not [33%N] i). { eapply firstc_not; [|exact H]. intros c Hc I. apply (rvc_not c Hc). enum I; right; now left. }
  apply no_choice; [|apply no_choice; [|apply no_none]]; apply no_act, no_seq, nos_here, no_chr; try exact F; repeat constructor.
Qed.
Lemma xcmp_reads o s en : o <> CoUndef -> first_not [61%N] s -> rd cmpop_e en (cmpop_string o ++ s) (VCmpOp (CmpOp o zero_pos)) en s.
Proof.
  intros H F. exists (cmpop_string o). split; [reflexivity|].
  assert (Z : forall c w, (c < 128)%N -> no (ELit w [c; 61%N]) [] (c :: s)).
  { intros c w A. apply no_lit; [repeat constructor; exact A|]. intros t E. injection E as E. subst s. apply F. now left. }
  destruct o; try congruence; (eapply ok_act; [|reflexivity]); cbn [cmpop_string].
  - eapply ok_choice, ok_lit; repeat constructor.
  - eapply ok_next; [no_lits|]. eapply ok_choice, ok_lit; repeat constructor.
  - do 2 (eapply ok_next; [no_lits|]). eapply ok_choice, ok_lit; repeat constructor.
  - do 3 (eapply ok_next; [no_lits|]). eapply ok_choice, ok_lit; repeat constructor.
  - do 2 (eapply ok_next; [no_lits|]). eapply ok_next; [apply (Z 60%N); reflexivity|]. eapply ok_next; [no_lits|]. eapply ok_choice, ok_chr; reflexivity.
  - do 3 (eapply ok_next; [no_lits|]). eapply ok_next; [apply (Z 62%N); reflexivity|]. eapply ok_choice, ok_chr; reflexivity.
Qed.
Lemma xre_reads o s en : o <> RoUndef -> rd reop_e en (reop_string o ++ s) (VReOp (ReOp o zero_pos)) en s.
Proof.
  intros H. exists (reop_string o). split; [reflexivity|]. destruct o; try congruence; (eapply ok_act; [|reflexivity]); cbn [reop_string].
  - eapply ok_choice, ok_lit; repeat constructor.
  - eapply ok_next; [no_lits|]. eapply ok_choice, ok_lit; repeat constructor.
Qed.
Lemma xrds_app es fs en i en1 j en' s : rds es en i en1 j -> rds fs en1 j en' s -> rds (es ++ fs) en i en' s.
Proof.
  intros (t & l & -> & H) K. revert fs en' s K. remember (t ++ j) as i eqn:E. revert t l en H i E. induction es as [|e es IH]; intros t l en H i E fs en' s K.
  - inversion H; subst. exact K.
  - inversion H; subst. rewrite <- app_assoc. cbn [app]. eapply rds_cons; [eexists; split; [reflexivity|eassumption]|]. eapply IH; eauto.
Qed.
Lemma xparen_core c i s en : Cx c -> wf_cond c -> written ([tok "("; PHid] ++ pc_cond c ++ [PHid; tok ")"]) i s ->
  exists en', rds [lit "("; gaps_e; warn_e; ELab "cond" (ERef "condition"); gaps_e; warn_e] en i en' (41%N :: s) /\ lookup "cond" en' = VCond (shape_cond c).
Proof.
  intros V H W. destruct W as (u & -> & t & u1 & -> & G1 & W). change (written (pc_cond c ++ [PHid; tok ")"]) u1 s) in W. apply written_app in W as (j & Wc & t2 & u2 & -> & G2 & w & -> & Ew).
  cbn in Ew. subst w. change (b ")") with [41%N] in *. change (b "(") with [40%N]. cbn [app] in *.
  destruct (xgaps _ _ en (gap_xskip _ _ G1 (xcond_gap _ _ _ H Wc))) as (v1 & R1).
  destruct (xgaps _ _ (bind "cond" (VCond (shape_cond c)) en) (gap_xskip _ _ G2 (nogap_plain 41%N s ltac:(apply plain_close)))) as (v2 & R2).
  eexists. split.
  - eapply rds_cons; [apply rd_chr; reflexivity|]. eapply rds_cons; [exact R1|]. apply rds_warn. eapply rds_cons; [eapply rd_lab, V; [exact H|exact Wc|]|].
    + apply xcfollow_close; [right; now left|exact G2].
    + eapply rds_cons; [exact R2|]. apply rds_warn, rds_nil.
  - reflexivity.
Qed.
(** an operand, a gap and an operator *)
Lemma op_split i l w u s : written (pc_rvalue l ++ [PHid; PTok w] ++ u) i s -> exists t j r, written (pc_rvalue l) i (t ++ w ++ r) /\ j = t ++ w ++ r /\ gap_run t (w ++ r) /\ written u r s.
Proof. intros W. apply written_app in W as (j & Wl & t & u1 & -> & G & r & -> & W). exists t, (t ++ w ++ r), r. auto. Qed.
Lemma hid_split i l s : written (PHid :: l) i s -> exists t r, i = t ++ r /\ gap_run t r /\ written l r s.
Proof. intros (t & u & -> & G & W). eauto. Qed.
Theorem xexpr_reads e : Ex e.
Proof.
  induction e as [|p bo c IH|p bo c IH|p bo x|p bo l r|p bo l r|p bo r|p bo l o r|p bo l o r] using cexpr_ind'; intros f i s H W F; cbn [wf_cexpr pc_body set_bool_op shape_cexpr] in *.
  - contradiction.
  - destruct H as [_ H]. apply xcond_from in IH. destruct (xparen_core c i s [] IH H W) as (en' & R & L).
    eapply rd_ref with (1 := find_expression). eapply rd_choice. eapply rd_act.
    + refine (xrds_app _ [lit ")"] _ _ _ _ _ _ R _). eapply rds_cons; [apply rd_chr; reflexivity|apply rds_nil].
    + intros t. cbn [run_action]. rewrite L. reflexivity.
  - destruct H as [_ H]. apply xcond_from in IH. destruct W as (u & -> & t & u1 & -> & G & W).
    assert (N : nogap u1) by (destruct W as (w & -> & _); apply nogap_plain, plain_close).
    change (written ([tok "("; PHid] ++ pc_cond c ++ [PHid; tok ")"]) u1 s) in W.
    destruct (xgaps _ _ [] (gap_xskip _ _ G N)) as (v1 & R1). change (b "!" ++ ?i) with (33%N :: i).
    destruct (xparen_core c u1 s [] IH H W) as (en' & R & L).
    eapply rd_ref with (1 := find_expression). eapply rd_next; [no_lits|]. eapply rd_choice, rd_ref with (1 := find_neg). eapply rd_choice. eapply rd_act.
    + eapply rds_cons; [apply rd_chr; reflexivity|]. eapply rds_cons; [exact R1|]. apply rds_warn.
      refine (xrds_app _ [close ")" (fatal "expect closing parenthesis")] _ _ _ _ _ _ R _). eapply rds_cons; [apply xclose; reflexivity|apply rds_nil].
    + intros t0. cbn [run_action]. rewrite L. reflexivity.
  - destruct H as [_ H]. destruct W as (u & -> & t & u1 & -> & G & u2 & -> & ->). rewrite sel_text in *. change (b "!" ++ ?i) with (33%N :: i).
    destruct (selector_reads x s [] H) as (en' & R). { destruct F as [[_ F] _]. destruct s; [exact Logic.I|]. intros [E|[]]. apply F. right. now left. }
    destruct (sel_bracket x s H) as (w & E). rewrite E in *. destruct (xgaps _ _ [] (gap_xskip _ _ G (nogap_plain 91%N w ltac:(apply plain_close)))) as (v1 & R1).
    eapply rd_ref with (1 := find_expression). eapply rd_next; [no_lits|]. eapply rd_choice, rd_ref with (1 := find_neg). eapply rd_next.
    { apply no_act, no_seq. eapply nos_rd; [apply rd_chr; reflexivity|]. eapply nos_rd; [exact R1|]. apply nos_warn, nos_here. no_lits. }
    eapply rd_choice, rd_act; [eapply rds_cons; [apply rd_chr; reflexivity|]; eapply rds_cons; [exact R1|]; apply rds_warn; eapply rds_cons; [eapply rd_lab, R|apply rds_nil]|].
    intros u. reflexivity.
  - destruct H as (_ & Hl & Hr). apply (op_split i l _ (PHid :: pc_rvalue r)) in W as (t & j & u & Wl & _ & G & W). apply hid_split in W as (t2 & u2 & -> & G2 & Wr).
    change (b "in") with [105; 110]%N in *. cbn [app] in *. assert (N : nogap (105 :: 110 :: t2 ++ u2)%N) by (apply nogap_plain; split; [reflexivity|differ]).
    destruct (xrvalue_reads l _ _ Hl Wl) as (v & R & E1); [apply rfollow_gap; [exact G|reflexivity|unfold digit; lia|differ]|]. destruct (xrvalue_reads r _ _ Hr Wr (proj1 F)) as (w & Rw & E2).
    pose proof (xrv_first _ _ _ Hl Wl) as Fl.
    eapply rd_ref with (1 := find_expression). eapply rd_next; [now apply xparen_no|]. eapply rd_next; [now apply xneg_no|]. eapply rd_choice, rd_ref with (1 := find_in). eapply rd_act.
    + eapply rds_cons; [eapply rd_lab, R|].
      destruct (xgaps _ _ (bind "lv" v []) (gap_xskip _ _ G N)) as (v1 & R1).
      destruct (xgaps _ _ (bind "lv" v []) (gap_xskip _ _ G2 (xrv_gap _ _ _ Hr Wr))) as (v2 & R2).
      eapply rds_cons; [exact R1|]. apply rds_warn. eapply rds_cons; [eapply rd_choice with (en' := []), (rd_lit _ [105; 110]%N); repeat constructor|]. eapply rds_cons; [exact R2|]. apply rds_warn.
      eapply rds_cons; [eapply rd_lab, Rw|apply rds_nil].
    + intros t0. change (act_in (ExIn zero_pos no_op) v w = RVal (VExpr (ExIn zero_pos no_op (shape_rvalue l) (shape_rvalue r)))). unfold act_in. now rewrite E1, E2.
  - destruct H as (_ & Hl & Hr). apply (op_split i l _ (PHid :: tok "in" :: PHid :: pc_rvalue r)) in W as (t & j & u & Wl & _ & G & W). apply hid_split in W as (t2 & u2 & -> & G2 & u3 & -> & W).
    apply hid_split in W as (t3 & u4 & -> & G3 & Wr).
    change (b "in") with [105; 110]%N in *. change (b "not ") with [110; 111; 116; 32]%N in *. cbn [app] in *.
    assert (N : nogap (110 :: 111 :: 116 :: 32 :: t2 ++ 105 :: 110 :: t3 ++ u4)%N) by (apply nogap_plain; split; [reflexivity|differ]).
    assert (N2 : nogap (105 :: 110 :: t3 ++ u4)%N) by (apply nogap_plain; split; [reflexivity|differ]).
    destruct (xrvalue_reads l _ _ Hl Wl) as (v & R & E1); [apply rfollow_gap; [exact G|reflexivity|unfold digit; lia|differ]|]. destruct (xrvalue_reads r _ _ Hr Wr (proj1 F)) as (w & Rw & E2).
    pose proof (xrv_first _ _ _ Hl Wl) as Fl. pose proof (gap_xskip _ _ G N) as K.
    eapply rd_ref with (1 := find_expression). eapply rd_next; [now apply xparen_no|]. eapply rd_next; [now apply xneg_no|].
    eapply rd_next; [apply no_ref with (1 := find_in), no_act, no_seq; exact (xbin_no in_op_e _ v _ _ [gaps_e; warn_e; ELab "rv" (ERef "rvalue")] [] R K ltac:(intros en; no_lits))|].
    eapply rd_choice, rd_ref with (1 := find_notin). eapply rd_act.
    + eapply rds_cons; [eapply rd_lab, R|].
      destruct (xgaps _ _ (bind "lv" v []) K) as (v1 & R1).
      destruct (xgaps _ _ (bind "lv" v []) (gap_xskip _ _ G3 (xrv_gap _ _ _ Hr Wr))) as (v2 & R2).
      destruct (xgaps _ _ [] (gap_xskip _ _ G2 N2)) as (v3 & R3).
      assert (O : exists u, rd not_in_op_e (bind "lv" v []) (110 :: 111 :: 116 :: 32 :: t2 ++ 105 :: 110 :: t3 ++ u4)%N u (bind "lv" v []) (t3 ++ u4)).
      { assert (A : rds [lit "not "; gaps_e; warn_e; lit "in"] [] (110 :: 111 :: 116 :: 32 :: t2 ++ 105 :: 110 :: t3 ++ u4)%N [] (t3 ++ u4)).
        { eapply rds_cons; [apply (rd_lit _ [110; 111; 116; 32]%N); repeat constructor|]. eapply rds_cons; [exact R3|]. apply rds_warn. eapply rds_cons; [apply (rd_lit _ [105; 110]%N); repeat constructor|apply rds_nil]. }
        destruct A as (w0 & vs & Et & A). rewrite Et. exists (VList vs). eapply rd_choice with (en' := []). exists w0. split; [reflexivity|]. apply ok_seq. exact A. }
      destruct O as (u & O). eapply rds_cons; [exact R1|]. apply rds_warn. eapply rds_cons; [exact O|]. eapply rds_cons; [exact R2|]. apply rds_warn.
      eapply rds_cons; [eapply rd_lab, Rw|apply rds_nil].
    + intros t0. change (act_in (ExNotIn zero_pos no_op) v w = RVal (VExpr (ExNotIn zero_pos no_op (shape_rvalue l) (shape_rvalue r)))). unfold act_in. now rewrite E1, E2.
  - destruct H as (_ & Hr). destruct (xrvalue_reads r _ _ Hr W (proj1 F)) as (v & R & E1). pose proof (xrv_first _ _ _ Hr W) as Fl. destruct F as (D & s' & K & N).
    eapply rd_ref with (1 := find_expression). eapply rd_next; [now apply xparen_no|]. eapply rd_next; [now apply xneg_no|].
    eapply rd_next; [apply no_ref with (1 := find_in), no_act, no_seq; exact (xbin_no in_op_e _ v _ _ [gaps_e; warn_e; ELab "rv" (ERef "rvalue")] [] R K ltac:(intros en; apply N))|].
    eapply rd_next; [apply no_ref with (1 := find_notin), no_act, no_seq; exact (xbin_no not_in_op_e _ v _ _ [gaps_e; warn_e; ELab "rv" (ERef "rvalue")] [] R K ltac:(intros en; apply N))|].
    eapply rd_next; [apply no_ref with (1 := find_cmp), no_act, no_seq; exact (xbin_no (ELab "co" cmpop_e) _ v _ _ [gaps_e; warn_e; ELab "rv" (ERef "rvalue")] [] R K ltac:(intros en; apply no_lab, N))|].
    eapply rd_next; [apply no_ref with (1 := find_re), no_act, no_seq; exact (xbin_no (ELab "ro" reop_e) _ v _ _ [gaps_e; warn_e; ELab "rv" (EChoice [string_e; regexp_e])] [] R K ltac:(intros en; apply no_lab, N))|].
    eapply rd_choice, rd_act1; [eapply rd_lab, R|]. intros t. change (act_rvalue zero_pos v = RVal (VExpr (ExRv zero_pos no_op (shape_rvalue r)))). unfold act_rvalue. now rewrite E1.
  - destruct H as (_ & Hl & Ho & Hr). apply (op_split i l _ (PHid :: pc_rvalue r)) in W as (t & j & u & Wl & _ & G & W). apply hid_split in W as (t2 & u2 & -> & G2 & Wr).
    assert (Z : exists c q, cmpop_string (co_op o) = c :: q /\ In c [61; 33; 60; 62]%N) by (destruct (co_op o); try congruence; eexists _, _; (split; [reflexivity|cbv; auto 10])).
    destruct Z as (c & q & Z & Zc). assert (N : nogap (cmpop_string (co_op o) ++ t2 ++ u2)) by (rewrite Z; apply nogap_plain; enum Zc; split; try reflexivity; differ).
    destruct (xrvalue_reads l _ _ Hl Wl) as (v & R & E1); [rewrite Z in *; apply rfollow_gap; [exact G| | |]; enum Zc; try reflexivity; unfold digit; try lia; differ|].
    destruct (xrvalue_reads r _ _ Hr Wr (proj1 F)) as (w & Rw & E2). pose proof (xrv_first _ _ _ Hl Wl) as Fl. pose proof (gap_xskip _ _ G N) as K.
    assert (F61 : first_not [61%N] (t2 ++ u2)). { apply gap_first; [exact G2|reflexivity|]. eapply firstc_not; [|eapply xrv_first; eauto]. intros c0 Hc0 [E|[]]. subst c0. unfold rvc, digit, DQ, SQ in Hc0. cbn [In] in Hc0. lia. }
    eapply rd_ref with (1 := find_expression). eapply rd_next; [now apply xparen_no|]. eapply rd_next; [now apply xneg_no|].
    eapply rd_next; [apply no_ref with (1 := find_in), no_act, no_seq; refine (xbin_no in_op_e _ v _ _ [gaps_e; warn_e; ELab "rv" (ERef "rvalue")] [] R K _); intros en; destruct (co_op o); try congruence; no_lits|].
    eapply rd_next; [apply no_ref with (1 := find_notin), no_act, no_seq; refine (xbin_no not_in_op_e _ v _ _ [gaps_e; warn_e; ELab "rv" (ERef "rvalue")] [] R K _); intros en; destruct (co_op o); try congruence; no_lits|].
    eapply rd_choice, rd_ref with (1 := find_cmp). eapply rd_act.
    + eapply rds_cons; [eapply rd_lab, R|].
      destruct (xgaps _ _ (bind "lv" v []) K) as (v1 & R1).
      destruct (xgaps _ _ (bind "co" (VCmpOp (CmpOp (co_op o) zero_pos)) (bind "lv" v [])) (gap_xskip _ _ G2 (xrv_gap _ _ _ Hr Wr))) as (v2 & R2).
      eapply rds_cons; [exact R1|]. apply rds_warn. eapply rds_cons; [eapply rd_lab, xcmp_reads; [exact Ho|exact F61]|]. eapply rds_cons; [exact R2|]. apply rds_warn.
      eapply rds_cons; [eapply rd_lab, Rw|apply rds_nil].
    + intros t0. change (act_compare zero_pos v (VCmpOp (CmpOp (co_op o) zero_pos)) w = RVal (VExpr (ExCmp zero_pos no_op (shape_rvalue l) (shape_co o) (shape_rvalue r)))). unfold act_compare. now rewrite E1, E2.
  - destruct H as (_ & Hl & Ho & Hr). apply (op_split i l _ (PHid :: pc_strorre r)) in W as (t & j & u & Wl & _ & G & W). apply hid_split in W as (t2 & u2 & -> & G2 & Wr).
    assert (Z : exists c q, reop_string (ro_op o) = c :: q /\ In c [61; 33]%N) by (destruct (ro_op o); try congruence; eexists _, _; (split; [reflexivity|cbv; auto 10])).
    destruct Z as (c & q & Z & Zc). assert (N : nogap (reop_string (ro_op o) ++ t2 ++ u2)) by (rewrite Z; apply nogap_plain; enum Zc; split; try reflexivity; differ).
    destruct (xrvalue_reads l _ _ Hl Wl) as (v & R & E1); [rewrite Z in *; apply rfollow_gap; [exact G| | |]; enum Zc; try reflexivity; unfold digit; try lia; differ|].
    pose proof (xrv_first _ _ _ Hl Wl) as Fl. pose proof (gap_xskip _ _ G N) as K.
    assert (X : exists w, rd (EChoice [string_e; regexp_e]) [] u2 w [] s /\ as_strorre w = Some (shape_strorre r) /\ nogap u2).
    { destruct r as [|x|x]; cbn [wf_strorre pc_strorre shape_strorre] in *; [contradiction| |].
      - destruct Wr as (w & -> & Ew); cbn in Ew; subst w. destruct (xcstr_reads x s Hr) as (en' & R0). eexists. split; [eapply rd_choice, R0|]. split; [reflexivity|]. eapply firstc_nogap; [|apply firstc_app, cstr_first, Hr]. intros c0 I. enum I; apply plain_close.
      - destruct Wr as (w & -> & Ew); cbn in Ew; subst w. eexists. split; [eapply rd_next; [|eapply rd_choice, (xregexp_rd x s []), Hr]|]. { apply string_no. differ. } split; [reflexivity|]. apply nogap_plain. split; [reflexivity|differ]. }
    destruct X as (w & Rw & E2 & N2).
    eapply rd_ref with (1 := find_expression). eapply rd_next; [now apply xparen_no|]. eapply rd_next; [now apply xneg_no|].
    eapply rd_next; [apply no_ref with (1 := find_in), no_act, no_seq; refine (xbin_no in_op_e _ v _ _ [gaps_e; warn_e; ELab "rv" (ERef "rvalue")] [] R K _); intros en; destruct (ro_op o); try congruence; no_lits|].
    eapply rd_next; [apply no_ref with (1 := find_notin), no_act, no_seq; refine (xbin_no not_in_op_e _ v _ _ [gaps_e; warn_e; ELab "rv" (ERef "rvalue")] [] R K _); intros en; destruct (ro_op o); try congruence; no_lits|].
    eapply rd_next; [apply no_ref with (1 := find_cmp), no_act, no_seq; refine (xbin_no (ELab "co" cmpop_e) _ v _ _ [gaps_e; warn_e; ELab "rv" (ERef "rvalue")] [] R K _); intros en; destruct (ro_op o); try congruence; apply no_lab; no_lits|].
    eapply rd_choice, rd_ref with (1 := find_re). eapply rd_act.
    + eapply rds_cons; [eapply rd_lab, R|].
      destruct (xgaps _ _ (bind "lv" v []) K) as (v1 & R1).
      destruct (xgaps _ _ (bind "ro" (VReOp (ReOp (ro_op o) zero_pos)) (bind "lv" v [])) (gap_xskip _ _ G2 N2)) as (v2 & R2).
      eapply rds_cons; [exact R1|]. apply rds_warn. eapply rds_cons; [eapply rd_lab, xre_reads; exact Ho|]. eapply rds_cons; [exact R2|]. apply rds_warn.
      eapply rds_cons; [eapply rd_lab, Rw|apply rds_nil].
    + intros t0. change (act_regexp_expr zero_pos v (VReOp (ReOp (ro_op o) zero_pos)) w = RVal (VExpr (ExRe zero_pos no_op (shape_rvalue l) (shape_ro o) (shape_strorre r)))). unfold act_regexp_expr. now rewrite E1, E2.
Qed.
Theorem xcond_reads c : Cx c.
Proof. apply xcond_from. destruct c as [l]. cbn. apply Forall_forall. intros e _. apply xexpr_reads. Qed.
(** no condition starts with such a character *)
Lemma xcondition_no s en : no_rv s -> first_not [40; 33]%N s -> no (ERef "condition") en s.
Proof.
  intros H K. pose proof (fun en => xrvalue_no s en H) as N. apply no_ref with (1 := find_condition), no_act, no_seq, nos_here, no_lab, no_ref with (1 := find_expression).
  assert (F : forall c, In c [40; 33]%N -> first_not [c] s). { destruct s as [|c0 s]; [intros; exact Logic.I|]. intros c I [E|[]]. apply K. now subst. }
  apply no_choice; [apply no_act, no_seq, nos_here, no_chr; [repeat constructor|apply F; now left]|].
  apply no_choice; [apply no_ref with (1 := find_neg); apply no_choice; [|apply no_choice; [|apply no_none]]; (apply no_act, no_seq, nos_here, no_chr; [repeat constructor|apply F; right; now left])|].
  apply no_choice; [apply no_ref with (1 := find_in), no_act, no_seq, nos_here, no_lab, N|].
  apply no_choice; [apply no_ref with (1 := find_notin), no_act, no_seq, nos_here, no_lab, N|].
  apply no_choice; [apply no_ref with (1 := find_cmp), no_act, no_seq, nos_here, no_lab, N|].
  apply no_choice; [apply no_ref with (1 := find_re), no_act, no_seq, nos_here, no_lab, N|].
  apply no_choice; [apply no_act, no_lab, N|apply no_none].
Qed.
End Conditions.
