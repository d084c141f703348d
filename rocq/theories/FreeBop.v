(** Plugins, branches and sections in any layout, read with the option IgnoreComments. *)
From Coq Require Import List NArith Bool String Arith Lia.
From Verif Require Import Bytes Utf8 F64 Ast Peg Actions Engine AstPrint AstInd EscapeFacts QuoteFacts SimpleFacts PosFacts Matches PegSem LexFacts Tree Rules Bare Reads Lines Layout
  ReadLex ReadGap ReadCom ReadVal ReadCond ReadBop Spelled Written FreeLex FreeVal FreeCond FreeWord.
Import ListNotations.

(** ** Words that start like a keyword *)
Lemma xifCond_no n s en : name_ok n -> ~ takes_if n -> opening s -> no (ERef "ifCond") en (n ++ s).
Proof.
  intros [W|(q & v & Hq & Hv & ->)] H O; apply no_ref with (1 := find_ifCond), no_act, no_seq.
  - destruct (xlit_cases "if" [] (n ++ s)) as [N|(t & E & R)]; [repeat constructor|now apply nos_here|].
    eapply nos_rd; [exact R|]. apply key_in in E; [|keys|exact O].
    destruct E as (t0 & -> & ->). destruct W as [_ W]. apply Forall_app in W as [_ W]. apply (word_cond_no t0 s [] block_tail W O). intros X. apply H. now exists t0.
  - apply nos_here. apply xquote_nolit; [exact Hq|differ|repeat constructor].
Qed.
Lemma xelse_no n s en : name_ok n -> ~ takes_else n -> opening s -> no (ERef "elseIf") en (n ++ s) /\ no (ERef "elseCond") en (n ++ s).
Proof.
  intros [W|(q & v & Hq & Hv & ->)] H O.
  - destruct (xlit_cases "else" [] (n ++ s)) as [N|(t & E & R)]; [repeat constructor| |].
    { split; [apply no_ref with (1 := find_elseIf)|apply no_ref with (1 := find_elseCond)]; now apply no_act, no_seq, nos_here. }
    apply key_in in E; [|keys|exact O]. destruct E as (t0 & En & ->).
    assert (N0 : t0 <> []). { intros ->. apply H. left. now rewrite En, app_nil_r. }
    assert (W0 : exists c u, t0 = c :: u /\ word_char c /\ Forall word_char t0).
    { destruct t0 as [|c u]; [congruence|]. exists c, u. split; [reflexivity|]. destruct W as [_ W]. rewrite En in W. apply Forall_app in W as [_ W]. split; [now inversion W|exact W]. }
    destruct W0 as (c & u & Et & Wc & W0). assert (K : xskip (t0 ++ s) (t0 ++ s)) by (rewrite Et; apply xskip_none, nogap_plain; now apply word_is_plain).
    destruct (xgaps _ _ [] K) as (v & R1).
    split; [apply no_ref with (1 := find_elseIf)|apply no_ref with (1 := find_elseCond)]; apply no_act, no_seq; (eapply nos_rd; [exact R|]; eapply nos_rd; [exact R1|]; apply nos_warn).
    + destruct (xlit_cases "if" [] (t0 ++ s)) as [N|(t & E2 & R2)]; [repeat constructor|now apply nos_here|]. eapply nos_rd; [exact R2|].
      apply key_in in E2; [|keys|exact O]. destruct E2 as (t1 & E3 & ->). rewrite E3 in W0. apply Forall_app in W0 as [_ W1].
      apply (word_cond_no t1 s [] block_tail W1 O). intros X. apply H. right. exists t1. split; [rewrite En, E3; reflexivity|exact X].
    + apply nos_here, no_chr; [repeat constructor|]. rewrite Et. cbn. unfold word_char, bareword_char, bareword_start in Wc. lia.
  - split; [apply no_ref with (1 := find_elseIf)|apply no_ref with (1 := find_elseCond)]; apply no_act, no_seq, nos_here; (apply xquote_nolit; [exact Hq|differ|repeat constructor]).
Qed.

(** ** What follows a plugin or branch *)
Definition xno_else (s : bytes) : Prop := forall en, no (ERef "elseIf") en s /\ no (ERef "elseCond") en s.
Definition xbfollow (s : bytes) : Prop := exists s', xskip s s' /\ xno_else s'.
Lemma xcloser_no_else s : xno_else (125%N :: s).
Proof. intros en. split; [apply no_ref with (1 := find_elseIf)|apply no_ref with (1 := find_elseCond)]; apply no_act, no_seq, nos_here, no_chr; repeat constructor; differ. Qed.
(** a plugin or branch after its gap *)
Definition pc_core (x : bop) : list piece :=
  match x with
  | BNil => []
  | BPlugin p | BPluginPtr p => pc_plugin p
  | BBranch i es e =>
      pc_if i ++ flat_map (fun x => [PGap Plain (match x with IfB _ _ _ c _ => c end); tok "else"; PHid] ++ pc_if x) es ++ pc_else e
  end.
Lemma pc_bop_core x : wf_bop x -> exists c, pc_bop x = PGap Plain c :: pc_core x.
Proof. destruct x; cbn [wf_bop pc_bop pc_core]; try contradiction; intros _; eexists; reflexivity. Qed.
Section Blocks.
Context {LO : losing} {HLO : lost_reads LO}.
Lemma plugin_text p i s : written (pc_plugin p) i s -> exists r, i = pname p ++ r /\ opening r.
Proof.
  destruct p as [pp n l c f]. intros (u & -> & t & u1 & -> & G & u2 & -> & _). exists (t ++ b "{" ++ u2). split; [reflexivity|]. exists t, u2. auto.
Qed.
Lemma if_text i u s : written (pc_if i) u s -> exists r, u = b "if" ++ r.
Proof. destruct i. intros (r & -> & _). eauto. Qed.
Lemma core_cases x i s : wf_bop x -> written (pc_core x) i s -> (exists p r, x = BPlugin p /\ wf_plugin p /\ i = pname p ++ r /\ opening r) \/ exists r, i = b "if" ++ r.
Proof.
  destruct x as [|p|p|ib es e]; cbn [wf_bop pc_core]; intros H W; try contradiction.
  - left. destruct (plugin_text p i s W) as (r & E & O). exists p, r. auto.
  - right. apply written_app in W as (j & W & _). eapply if_text, W.
Qed.
Lemma core_gap x i s : wf_bop x -> written (pc_core x) i s -> nogap i.
Proof.
  intros H W. destruct (core_cases x i s H W) as [(p & r & -> & Hp & -> & _)|(r & ->)]; [|apply nogap_plain; split; [reflexivity|differ]].
  eapply firstc_nogap; [exact namec_plain|]. apply firstc_app, name_first. destruct p; apply Hp.
Qed.
Lemma core_no_else x i s : wf_bop x -> written (pc_core x) i s -> (match x with BPlugin p => ~ takes_else (pname p) | _ => True end) -> xno_else i.
Proof.
  intros H W N en. destruct (core_cases x i s H W) as [(p & r & -> & Hp & -> & O)|(r & ->)]; [apply xelse_no; auto; destruct p; apply Hp|].
  split; [apply no_ref with (1 := find_elseIf)|apply no_ref with (1 := find_elseCond)]; apply no_act, no_seq, nos_here, no_chr; repeat constructor; differ.
Qed.
Definition xopen (x : bop) : Prop := match x with BBranch _ _ (ElB p _ _ _) => is_zero p = true | _ => False end.

(** ** Lists of plugins and branches *)
Definition Bx (x : bop) : Prop := forall gi i s, wf_bop x -> clear_bop x -> (xopen x -> xbfollow s) -> xskip gi i -> written (pc_core x) i s ->
  rd (ERef "branchOrPlugin") [] gi (bop_val (shape_bop x)) [] s.
Lemma xbop_no gi s en : xskip gi (125%N :: s) -> no (ERef "branchOrPlugin") en gi.
Proof.
  intros K. destruct (closer_no 125%N s (or_intror eq_refl)) as (H1 & H2 & _ & _ & _ & H6). apply no_ref with (1 := find_bop). apply no_choice; [|apply no_choice; [|apply no_none]].
  - apply no_ref with (1 := find_branch), no_act, no_seq. destruct K as (v & R & _). eapply nos_rd; [eapply rd_lab, (R [])|]. apply nos_here, no_lab, no_ref with (1 := find_ifCond), no_act, no_seq, nos_here.
    eapply first_not_lit; [|repeat constructor|exact H6]. cbv. auto 10.
  - apply no_ref with (1 := find_plugin). eapply xplugin_no_name; eauto.
Qed.
Definition xitem (e : expr) : Prop := (forall x gi i s, wf_bop x -> clear_bop x -> Bx x -> (xopen x -> xbfollow s) -> xskip gi i -> written (pc_core x) i s ->
  exists en', rd e [] gi (bop_val (shape_bop x)) en' s) /\ forall gi s, xskip gi (125%N :: s) -> no e [] gi.
Lemma xblock_item : xitem block_bop_e.
Proof.
  split.
  - intros x gi i s H C V F (v & R & Q) W. specialize (V i i s H C F (xskip_none _ (core_gap _ _ _ H W)) W). eexists. eapply rd_act.
    + eapply rds_cons; [eapply rd_lab, R|]. eapply rds_cons; [eapply rd_lab, V|apply rds_nil].
    + intros t. cbn [run_action]. change (act_bop_comment (bop_val (shape_bop x)) v = RVal (bop_val (shape_bop x))).
      destruct x as [|p|p|[ip c l com foot] es e]; [contradiction| | |]; cbn [shape_bop bop_val act_bop_comment]; try (destruct p); cbn [shape_plugin set_plugin_com shape_if]; now rewrite Q.
  - intros gi s (v & R & _). apply no_act, no_seq. eapply nos_rd; [eapply rd_lab, (R [])|]. apply nos_here, no_lab, (xbop_no _ s). apply xskip_none, nogap_plain, plain_close.
Qed.
Lemma xsection_item : xitem sec_item_e.
Proof.
  split; [|intros gi s K; now apply no_act, no_lab, (xbop_no _ s)].
  intros x gi i s H C V F K W. specialize (V gi i s H C F K W). eexists. eapply rd_act1; [eapply rd_lab, V|]. intros t. reflexivity.
Qed.
Lemma parted_open x y : parted x y -> xopen x -> match y with BPlugin p => ~ takes_else (pname p) | _ => True end.
Proof. destruct x as [| | |i es [p l c f]], y; cbn; auto; contradiction. Qed.
Lemma xitems e l : xitem e -> Forall (fun x => wf_bop x /\ clear_bop x /\ Bx x) l -> all_parted l -> forall f i r, written (flat_map pc_bop l ++ [PGap Plain f; tok "}"]) i r ->
  exists j, rdt e i (map (fun x => bop_val (shape_bop x)) l) j /\ xskip j (125%N :: r) /\ forall x, (match l with y :: _ => parted x y | [] => True end) -> xopen x -> xbfollow i.
Proof.
  intros [I1 I2] H. induction H as [|x l (Hx & Cx & Vx) H IH]; intros A f i r W.
  - cbn [flat_map app] in W. apply (ends_written _ _ _ _ 125%N) in W; [|reflexivity]. pose proof (ends_skip _ _ _ (or_intror eq_refl) W) as K. exists i.
    split; [apply rdt_stop; eapply I2, K|]. split; [exact K|]. intros x _ _. exists (125%N :: r). split; [exact K|apply xcloser_no_else].
  - destruct A as [A1 A]. cbn [flat_map] in W. destruct (pc_bop_core x Hx) as (c & E). rewrite E, <- app_assoc in W. destruct W as (t & u & -> & G & W).
    change (written (pc_core x ++ flat_map pc_bop l ++ [PGap Plain f; tok "}"]) u r) in W. apply written_app in W as (j & Wx & W). destruct (IH A f j r W) as (C & R & K & F).
    pose proof (gap_xskip _ _ G (core_gap _ _ _ Hx Wx)) as Kx. destruct (I1 x _ _ _ Hx Cx Vx (F x A1) Kx Wx) as (en' & Rx).
    exists C. split; [eapply rdt_more; eauto|]. split; [exact K|]. intros y P O. exists u. split; [exact Kx|]. eapply core_no_else; [exact Hx|exact Wx|eapply parted_open; eauto].
Qed.
Lemma xas_bops l : Forall wf_bop l -> all_some as_bop (map (fun x => bop_val (shape_bop x)) l) = Some (map shape_bop l).
Proof.
  induction 1 as [|x l Hx H IH]; [reflexivity|]. cbn [map all_some]. rewrite IH. destruct x; [contradiction|reflexivity|reflexivity|reflexivity].
Qed.
Definition goods (l : list bop) : Prop := Forall (fun x => wf_bop x /\ clear_bop x /\ Bx x) l /\ all_parted l.
Lemma xblock l f i s en : goods l -> written ([tok "{"] ++ flat_map pc_bop l ++ [PGap Plain f; tok "}"]) i s ->
  exists en', rds (lit "{" :: block_tail) en i en' s /\
    branch_or_plugins (lookup "bops" en') = map shape_bop l /\ quiet (lookup "footerComment" en') /\ lookup "cond" en' = lookup "cond" en.
Proof.
  intros [H A] (u & -> & W). destruct (xitems block_bop_e l xblock_item H A f u s W) as (j & R & (v & G & Q) & _). change (b "{") with [123%N]. cbn [app].
  eexists. split; [|split; [|split]].
  - eapply rds_cons; [apply rd_chr; reflexivity|]. eapply rds_cons; [eapply rd_lab, rd_star, R|]. eapply rds_cons; [eapply rd_lab, G|]. eapply rds_cons; [apply xclose; reflexivity|apply rds_nil].
  - change (branch_or_plugins (VList (map (fun x => bop_val (shape_bop x)) l)) = map shape_bop l). unfold branch_or_plugins. cbn [iface_slice]. rewrite xas_bops; [reflexivity|]. eapply Forall_impl; [|exact H]. now intros a [Ha _].
  - exact Q.
  - reflexivity.
Qed.

(** ** Branches *)
Definition Ix (i : ifblock) : Prop := wf_if i /\ goods (block i).
Lemma xif_tail c l f i s en : wf_cond c -> goods l -> written ([tok "if"; PHid] ++ pc_cond c ++ [PHid; tok "{"] ++ flat_map pc_bop l ++ [PGap Plain f; tok "}"]) i s ->
  exists en', rds ([lit "if"; gaps_e; warn_e; ELab "cond" (ERef "condition"); gaps_e; warn_e; lit "{"] ++ block_tail) en i en' s /\
    branch_or_plugins (lookup "bops" en') = map shape_bop l /\ quiet (lookup "footerComment" en') /\ lookup "cond" en' = VCond (shape_cond c).
Proof.
  intros Hc H (u & -> & t & u1 & -> & G1 & W). change (written (pc_cond c ++ [PHid; tok "{"] ++ flat_map pc_bop l ++ [PGap Plain f; tok "}"]) u1 s) in W.
  apply written_app in W as (j & Wc & t2 & u2 & -> & G2 & W). change (written ([tok "{"] ++ flat_map pc_bop l ++ [PGap Plain f; tok "}"]) u2 s) in W.
  destruct (xblock l f u2 s (bind "cond" (VCond (shape_cond c)) en) H W) as (en' & R & L1 & L2 & L3).
  destruct W as (u3 & -> & _). change (b "{") with [123%N] in *. cbn [app] in *.
  destruct (xgaps _ _ en (gap_xskip _ _ G1 (xcond_gap _ _ _ Hc Wc))) as (v1 & R1).
  destruct (xgaps _ _ (bind "cond" (VCond (shape_cond c)) en) (gap_xskip _ _ G2 (nogap_plain 123%N u3 ltac:(apply plain_close)))) as (v2 & R2).
  assert (CF : xcfollow (t2 ++ 123%N :: u3)) by (apply xcfollow_close; [now left|exact G2]).
  exists en'. split; [|split; [exact L1|split; [exact L2|]]].
  - eapply rds_cons; [apply rd_lit; repeat constructor|]. eapply rds_cons; [exact R1|]. apply rds_warn. eapply rds_cons; [eapply rd_lab, (xcond_reads c _ _ Hc Wc CF)|].
    eapply rds_cons; [exact R2|]. apply rds_warn. exact R.
  - rewrite L3. reflexivity.
Qed.
Lemma xif_reads x i s : Ix x -> written (pc_if x) i s -> rd (ERef "ifCond") [] i (VIf (shape_if x)) [] s.
Proof.
  destruct x as [p c l com foot]. intros [(Hc & _) H] W. cbn [block] in H. cbn [pc_if] in W.
  destruct (xif_tail c l foot i s [] Hc H W) as (en' & R & L1 & L2 & L3). eapply rd_ref with (1 := find_ifCond). eapply rd_act; [exact R|].
  intros t. cbn [run_action]. rewrite L3. unfold act_if_block. rewrite L1, L2. reflexivity.
Qed.
Lemma xelseif_reads x i s : Ix x -> written ([tok "else"; PHid] ++ pc_if x) i s -> rd (ERef "elseIf") [] i (VElseIf (shape_if x)) [] s.
Proof.
  destruct x as [p c l com foot]. intros [(Hc & _) H] (u & -> & t & u1 & -> & G & W). cbn [block] in H. change (written (pc_if (IfB p c l com foot)) u1 s) in W.
  assert (N : nogap u1). { destruct (if_text _ _ _ W) as (r & ->). apply nogap_plain. split; [reflexivity|differ]. } cbn [pc_if] in W.
  destruct (xif_tail c l foot u1 s [] Hc H W) as (en' & R & L1 & L2 & L3). destruct (xgaps _ _ [] (gap_xskip _ _ G N)) as (v1 & R1).
  eapply rd_ref with (1 := find_elseIf). eapply rd_act; [eapply rds_cons; [apply rd_lit; repeat constructor|]; eapply rds_cons; [exact R1|]; apply rds_warn; exact R|].
  intros t0. cbn [run_action]. rewrite L3. unfold act_if_block. rewrite L1, L2. reflexivity.
Qed.
Lemma xelse_reads p l com foot i s : goods l -> written ([tok "else"; PHid; tok "{"] ++ flat_map pc_bop l ++ [PGap Plain foot; tok "}"]) i s ->
  rd (ERef "elseCond") [] i (VElse (shape_else (ElB p l com foot))) [] s.
Proof.
  intros H (u & -> & t & u1 & -> & G & W). change (written ([tok "{"] ++ flat_map pc_bop l ++ [PGap Plain foot; tok "}"]) u1 s) in W. destruct (xblock l foot u1 s [] H W) as (en' & R & L1 & L2 & _).
  assert (N : nogap u1) by (destruct W as (w & -> & _); apply nogap_plain, plain_close). destruct (xgaps _ _ [] (gap_xskip _ _ G N)) as (v1 & R1).
  eapply rd_ref with (1 := find_elseCond). eapply rd_act; [eapply rds_cons; [apply rd_lit; repeat constructor|]; eapply rds_cons; [exact R1|]; apply rds_warn; exact R|].
  intros t0. cbn [run_action]. unfold act_else_block. rewrite L1, L2. reflexivity.
Qed.
Definition pc_elseif (x : ifblock) : list piece := [PGap Plain (match x with IfB _ _ _ c _ => c end); tok "else"; PHid] ++ pc_if x.
(** an else block or no else *)
Definition elses (T : bytes) : Prop := xbfollow T \/ exists t u t2 u2, T = t ++ b "else" ++ u /\ gap_run t (b "else" ++ u) /\ u = t2 ++ 123%N :: u2 /\ gap_run t2 (123%N :: u2).
Lemma xelseifs es : Forall Ix es -> forall i T, written (flat_map pc_elseif es) i T -> elses T -> rdt more_elseif_e i (map (fun i => VElseIf (shape_if i)) es) T.
Proof.
  induction 1 as [|x es Hi H IH]; intros i T W F.
  - cbn in W. subst i. apply rdt_stop, no_act, no_seq. destruct F as [(s' & (v & R & _) & N)|(t & u & t2 & u2 & -> & G & -> & G2)].
    + eapply nos_rd; [eapply rd_lab, (R [])|]. apply nos_here, no_lab, N.
    + destruct (gap_xskip _ _ G) as (v & R & _); [apply nogap_plain; split; [reflexivity|differ]|]. eapply nos_rd; [eapply rd_lab, (R [])|]. apply nos_here, no_lab, no_ref with (1 := find_elseIf), no_act, no_seq.
      destruct (xgaps _ _ [] (gap_xskip _ _ G2 (nogap_plain 123%N u2 ltac:(apply plain_close)))) as (v1 & R1).
      eapply nos_rd; [apply (rd_lit _ (b "else")); repeat constructor|]. eapply nos_rd; [exact R1|]. apply nos_warn, nos_here. no_lits.
  - cbn [flat_map] in W. unfold pc_elseif at 1 in W. rewrite <- app_assoc in W. destruct W as (t & u & -> & G & W).
    change (written (([tok "else"; PHid] ++ pc_if x) ++ flat_map pc_elseif es) u T) in W. apply written_app in W as (j & Wx & W).
    assert (N : nogap u) by (destruct Wx as (w & -> & _); apply nogap_plain; split; [reflexivity|differ]). destruct (gap_xskip _ _ G N) as (v & R & Q).
    eapply rdt_more; [|apply IH; [exact W|exact F]]. eapply rd_act; [eapply rds_cons; [eapply rd_lab, R|]; eapply rds_cons; [eapply rd_lab, (xelseif_reads x _ _ Hi Wx)|apply rds_nil]|].
    intros t0. cbn [run_action]. change (act_else_if_comment (VElseIf (shape_if x)) v = RVal (VElseIf (shape_if x))). destruct x as [p c l com foot]. cbn [shape_if act_else_if_comment]. now rewrite Q.
Qed.
Lemma xelse_ifs_ok es : else_ifs_loop (map (fun i => VElseIf (shape_if i)) es) = inl (map shape_if es).
Proof. induction es as [|i es IH]; [reflexivity|]. cbn [map else_ifs_loop]. now rewrite IH. Qed.
Lemma xelse_part e i s : wf_else e -> goods (eblock e) -> written (pc_else e) i s -> ((match e with ElB p _ _ _ => is_zero p = true end) -> xbfollow s) ->
  exists v, rd (EOpt else_e) [] i v [] s /\ (match v with VNil => Some zero_else | VElse x => Some x | _ => None end) = Some (shape_else e) /\ elses i.
Proof.
  destruct e as [p l com foot]. intros (_ & _ & _ & Z) H W F. cbn [eblock pc_else] in *. destruct (is_zero p) eqn:E.
  - cbn in W. subst i. destruct (F eq_refl) as (s' & K & N). exists VNil. split; [|split; [|left; exists s'; auto]].
    + apply rd_opt_none. destruct K as (v & R & _). apply no_act, no_seq. eapply nos_rd; [eapply rd_lab, (R [])|]. apply nos_here, no_lab, N.
    + destruct Z as (-> & _); [|reflexivity]. revert E. unfold is_zero. destruct p as [pl pc po]. rewrite !andb_true_iff, !Nat.eqb_eq. intros [[A1 A2] A3]. cbn in *. subst. reflexivity.
  - destruct W as (t & u & -> & G & W). change (written ([tok "else"; PHid; tok "{"] ++ flat_map pc_bop l ++ [PGap Plain foot; tok "}"]) u s) in W.
    pose proof (xelse_reads p l com foot u s H W) as R. destruct W as (u1 & -> & t2 & u2 & -> & G2 & u3 & -> & _).
    destruct (gap_xskip _ _ G) as (v & R1 & Q); [apply nogap_plain; split; [reflexivity|differ]|].
    exists (VElse (shape_else (ElB p l com foot))). split; [|split; [reflexivity|]].
    + eapply rd_opt, rd_act; [eapply rds_cons; [eapply rd_lab, R1|]; eapply rds_cons; [eapply rd_lab, R|apply rds_nil]|].
      intros t0. change (act_else_comment (VElse (shape_else (ElB p l com foot))) v = RVal (VElse (shape_else (ElB p l com foot)))). cbn [shape_else act_else_comment]. now rewrite Q.
    + right. exists t, (t2 ++ b "{" ++ u3), t2, u3. auto.
Qed.
Lemma goods_from l : All wf_bop l -> All clear_bop l -> all_parted l -> Forall Bx l -> goods l.
Proof. intros H C A V. split; [|exact A]. apply All_Forall in H. apply All_Forall in C. rewrite Forall_forall in *. auto. Qed.
Theorem xbop_reads x : Bx x.
Proof.
  assert (P : forall p gi i s, wf_plugin p -> ~ takes_if (pname p) -> xskip gi i -> written (pc_plugin p) i s -> rd (ERef "branchOrPlugin") [] gi (VPlugin (shape_plugin p)) [] s).
  { intros p gi i s H N K W. eapply rd_ref with (1 := find_bop). apply rd_next.
    - apply no_ref with (1 := find_branch), no_act, no_seq. pose proof K as (v & R & _). eapply nos_rd; [eapply rd_lab, (R [])|]. apply nos_here, no_lab.
      destruct (plugin_text p i s W) as (r & -> & O). apply xifCond_no; [destruct p; apply H|exact N|exact O].
    - eapply rd_choice, xplugin_reads; [exact H| |exact K|exact W]. apply Forall_forall. intros a _. apply xvalue_reads. }
  induction x as [|p|p|ib es e IHi IHes IHe] using bop_ind'; intros gi i s H C F K W; cbn [wf_bop clear_bop] in *.
  - contradiction.
  - now apply (P p gi i).
  - contradiction.
  - destruct H as (Hi & Hes & He), C as (Ci & Ces & Ce).
    assert (Ii : Ix ib). { split; [exact Hi|]. destruct ib as [ip c l icm foot]. apply goods_from; [apply Hi|apply Ci|apply Ci|exact IHi]. }
    assert (Is : Forall Ix es). { apply All_Forall in Hes. apply All_Forall in Ces. rewrite Forall_forall in *. intros x Hx. specialize (Hes x Hx). specialize (Ces x Hx). split; [exact Hes|]. destruct x as [ip c l icm foot]. apply goods_from; [apply Hes|apply Ces|apply Ces|exact (IHes _ Hx)]. }
    assert (Ie : goods (eblock e)). { destruct e as [ep l ecm foot]. apply goods_from; [apply He|apply Ce|apply Ce|exact IHe]. }
    cbn [pc_core] in W. apply written_app in W as (j & W1 & W). apply written_app in W as (j2 & W2 & W3).
    destruct (xelse_part e j2 s He Ie W3) as (v & R & E & Fo). { destruct e. exact F. }
    pose proof (xelseifs es Is j j2 W2 Fo) as M. destruct K as (w & Rw & Q).
    eapply rd_ref with (1 := find_bop). eapply rd_choice, rd_ref with (1 := find_branch). eapply rd_act.
    + eapply rds_cons; [eapply rd_lab, Rw|]. eapply rds_cons; [eapply rd_lab, (xif_reads ib _ _ Ii W1)|]. eapply rds_cons; [eapply rd_lab, rd_star, M|]. eapply rds_cons; [eapply rd_lab, R|apply rds_nil].
    + intros t. cbn [run_action shape_bop bop_val].
      change (act_branch (VIf (shape_if ib)) (VList (map (fun i => VElseIf (shape_if i)) es)) v w = RVal (VBranch (shape_if ib) (map shape_if es) (shape_else e))).
      unfold act_branch. cbn [iface_slice]. rewrite xelse_ifs_ok, E. destruct ib as [ip c l icm foot]. cbn [shape_if]. now rewrite Q.
Qed.

(** ** Sections *)
Lemma xkind_gap t s : t <> PTUndef -> nogap (ptype_string t ++ s).
Proof. intros H. destruct t; try congruence; apply nogap_plain; (split; [reflexivity|differ]). Qed.
Lemma xptype_reads t s : t <> PTUndef -> rd ptype_e [] (ptype_string t ++ s) (VPType t) [] s.
Proof.
  intros H. destruct t; try congruence; cbn [ptype_string].
  - eapply rd_choice, rd_act1; [apply rd_lit; repeat constructor|reflexivity].
  - eapply rd_next; [no_lits|]. eapply rd_choice, rd_act1; [apply rd_lit; repeat constructor|reflexivity].
  - do 2 (eapply rd_next; [no_lits|]). eapply rd_choice, rd_act1; [apply rd_lit; repeat constructor|reflexivity].
Qed.
Lemma xsection_no en : no (ERef "pluginSection") en [].
Proof.
  apply no_ref with (1 := find_section), no_act, no_seq, nos_here, no_lab. no_lits; apply no_chr; try exact Logic.I; repeat constructor.
Qed.
Definition pc_section_core (x : section) : list piece := [PTok (ptype_string (ps_type x)); PHid; tok "{"] ++ flat_map pc_bop (ps_bops x) ++ [PGap Plain (ps_foot x); tok "}"].
Lemma xsection_reads x i s : ps_type x <> PTUndef -> All wf_bop (ps_bops x) -> clear_section x -> written (pc_section_core x) i s ->
  rd (ERef "pluginSection") [] i (VSection (shape_section x)) [] s.
Proof.
  intros N H [C A] (u & -> & t & u1 & -> & G & u2 & -> & W). change (written (flat_map pc_bop (ps_bops x) ++ [PGap Plain (ps_foot x); tok "}"]) u2 s) in W. change (b "{") with [123%N] in *. cbn [app] in *.
  assert (Gd : goods (ps_bops x)). { apply goods_from; auto. apply Forall_forall. intros y _. apply xbop_reads. } destruct Gd as [Gd _].
  destruct (xitems sec_item_e (ps_bops x) xsection_item Gd A _ u2 s W) as (j & R & (v & Rf & Q) & _).
  destruct (xgaps _ _ (bind "pt" (VPType (ps_type x)) []) (gap_xskip _ _ G (nogap_plain 123%N u2 ltac:(apply plain_close)))) as (v1 & R1).
  eapply rd_ref with (1 := find_section). eapply rd_act.
  - eapply rds_cons; [eapply rd_lab, xptype_reads, N|]. eapply rds_cons; [exact R1|]. apply rds_warn. eapply rds_cons; [apply rd_chr; reflexivity|].
    eapply rds_cons; [eapply rd_lab, rd_star, R|]. eapply rds_cons; [eapply rd_lab, Rf|]. eapply rds_cons; [apply xclose; reflexivity|apply rds_nil].
  - intros t0. change (act_plugin_section zero_pos (VPType (ps_type x)) (VList (map (fun x => bop_val (shape_bop x)) (ps_bops x))) v = RVal (VSection (shape_section x))).
    unfold act_plugin_section, shape_section. cbn [iface_slice]. rewrite xas_bops by (apply All_Forall; exact H). now rewrite Q.
Qed.
End Blocks.
