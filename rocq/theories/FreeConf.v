(** Configurations in any layout: the derivations of FreeBop.v turned into a statement
    about [parse]. *)
From Coq Require Import List NArith Bool String Arith Lia.
From Verif Require Import Bytes Utf8 F64 Ast Peg Actions Engine Parser GrammarGen AstPrint AstInd EscapeFacts QuoteFacts SimpleFacts Utf8Facts PosFacts Run EngineFacts
  Termination Matches RunInv Sim HistFacts ParseFacts InputFacts LimitFacts Strip PegSem PegFacts LexFacts Tree Rules ParseTree Bare Reads Lines Layout
  ReadLex ReadGap ReadCom ReadVal ReadCond ReadBop ReadConf RoundTrip Spelled Written FreeLex FreeVal FreeCond FreeBop.
Import ListNotations.
Notation ok := (Reads.ok true rules).
Notation oks := (Reads.oks true rules).
Notation no := (Reads.no true rules).
Notation nos := (Reads.nos true rules).
Notation rd := (@ReadGap.rd true).
Notation rds := (@ReadGap.rds true).
Notation rdt := (@ReadGap.rdt true).

(** ** Sections *)
Definition xsec (s : section) : Prop := ps_type s <> PTUndef /\ All wf_bop (ps_bops s) /\ clear_section s.
Section Config.
Context {LO : losing} {HLO : lost_reads LO}.
Lemma xsec_gap s i r : xsec s -> written (pc_section_core s) i r -> nogap i.
Proof. intros (N & _) (u & -> & _). now apply xkind_gap. Qed.
Lemma foot_xskip foot i : written [PGap Next foot] i [] -> xskip i [].
Proof. intros (t & u & -> & G & ->). apply gap_xskip; [exact G|split; exact Logic.I]. Qed.
Lemma xsections ss foot : Forall xsec ss -> forall i, written (flat_map (pc_section Plain) ss ++ [PGap Next foot]) i [] ->
  exists j, rdt next_section_e i (map (fun s => VSection (shape_section s)) ss) j /\ xskip j [].
Proof.
  induction 1 as [|s ss Hs H IH]; intros i W; cbn [flat_map app] in W.
  - apply foot_xskip in W. exists i. split; [|exact W]. apply rdt_stop, no_act, no_seq. destruct W as (v & R & _). eapply nos_rd; [eapply rd_lab, (R [])|]. apply nos_here, no_lab, xsection_no.
  - change (pc_section Plain s) with (PGap Plain (ps_com s) :: pc_section_core s) in W. rewrite <- app_assoc in W. destruct W as (t & u & -> & G & W).
    change (written (pc_section_core s ++ flat_map (pc_section Plain) ss ++ [PGap Next foot]) u []) in W. apply written_app in W as (j & Ws & W). destruct (IH j W) as (k & R & K). exists k. split; [|exact K].
    destruct (gap_xskip _ _ G (xsec_gap _ _ _ Hs Ws)) as (v & Rv & Q). destruct Hs as (N & Hb & C).
    eapply rdt_more; [|exact R]. eapply rd_act; [eapply rds_cons; [eapply rd_lab, Rv|]; eapply rds_cons; [eapply rd_lab, (xsection_reads s _ _ N Hb C Ws)|apply rds_nil]|].
    intros t0. change (act_config_section (VSection (shape_section s)) v = RVal (VSection (shape_section s))). unfold act_config_section. rewrite Q. reflexivity.
Qed.
Definition shaped (ss : list section) : config :=
  Config (map shape_section (of_type PTInput ss)) (map shape_section (of_type PTFilter ss)) (map shape_section (of_type PTOutput ss)) [] [].
Lemma xloop ss : Forall (fun s => ps_type s <> PTUndef) ss -> forall i f o first, config_loop [] first (map (fun s => VSection (shape_section s)) ss) i f o =
  inl (i ++ map shape_section (of_type PTInput ss), f ++ map shape_section (of_type PTFilter ss), o ++ map shape_section (of_type PTOutput ss)).
Proof.
  induction 1 as [|s ss N H IH]; intros i f o first; [cbn; now rewrite !app_nil_r|]. cbn [map config_loop].
  replace (if first then set_ps_com (shape_section s) [] else shape_section s) with (shape_section s) by (destruct first; reflexivity).
  change (ps_type (shape_section s)) with (ps_type s). 
  assert (T : forall t, of_type t (s :: ss) = if is_type t s then s :: of_type t ss else of_type t ss) by reflexivity. rewrite !T. unfold is_type.
  destruct (ps_type s) eqn:E; try congruence; rewrite IH; cbn [map]; rewrite <- ?app_assoc; reflexivity.
Qed.
Theorem xconfig ss foot i : ss <> [] -> Forall xsec ss -> written (pc_config ss foot) i [] -> rd (ERef "config") [] i (VConfig (shaped ss)) [] [].
Proof.
  intros N H W. pose proof (xloop ss) as L. destruct H as [|s ss Hs H]; [congruence|].
  unfold pc_config in W. cbn [flat_map] in W. change (pc_section Top s) with (PGap Top (ps_com s) :: pc_section_core s) in W. rewrite <- !app_assoc in W. destruct W as (t & u & -> & G & W).
  change (written (pc_section_core s ++ flat_map (pc_section Plain) ss ++ [PGap Next foot]) u []) in W. apply written_app in W as (j & Ws & W). destruct (xsections ss foot H j W) as (k & R & (w & Rw & Qw)).
  destruct (gap_xskip _ _ G (xsec_gap _ _ _ Hs Ws)) as (v & Rv & Q). pose proof Hs as (Ns & Hb & C).
  eapply rd_ref with (1 := find_config). eapply rd_act.
  - eapply rds_cons; [eapply rd_lab, Rv|]. eapply rds_cons; [eapply rd_lab, (xsection_reads s _ _ Ns Hb C Ws)|]. eapply rds_cons; [eapply rd_lab, rd_star, R|].
    eapply rds_cons; [eapply rd_lab, Rw|]. eapply rds_cons; [apply FreeLex.eof_reads|apply rds_nil].
  - intros t0. change (act_config (VSection (shape_section s)) (VList (map (fun s => VSection (shape_section s)) ss)) v w = RVal (VConfig (shaped (s :: ss)))).
    unfold act_config. rewrite Q, Qw. change (iface_slice (VSection (shape_section s)) ++ iface_slice (VList (map (fun s => VSection (shape_section s)) ss))) with (map (fun s => VSection (shape_section s)) (s :: ss)).
    rewrite L; [reflexivity|]. constructor; [exact Ns|]. eapply Forall_impl; [|exact H]. intros a A. apply A.
Qed.
Theorem xinit ss foot i : Forall xsec ss -> written (pc_config ss foot) i [] -> exists en, rd init_e [] i (VConfig (shaped ss)) en [].
Proof.
  intros H W. destruct ss as [|s ss].
  - cbn [pc_config flat_map app] in W. apply foot_xskip in W as (v & R & _). eexists.
    eapply rd_act; [eapply rds_cons; [exists []; split; [reflexivity|constructor]|]; eapply rds_cons; [exists []; split; [reflexivity|constructor]|]; eapply rds_cons; [eapply rd_lab, rd_next|apply rds_nil]|].
    + apply no_act, no_seq, nos_here, no_lab, no_ref with (1 := find_config), no_act, no_seq. eapply nos_rd; [eapply rd_lab, (R [])|]. apply nos_here, no_lab, xsection_no.
    + eapply rd_choice, rd_act; [eapply rds_cons; [apply (R [])|]; eapply rds_cons; [apply FreeLex.eof_reads|apply rds_nil]|]. reflexivity.
    + reflexivity.
  - pose proof (xconfig (s :: ss) foot i ltac:(discriminate) H W) as R. eexists.
    eapply rd_act; [eapply rds_cons; [exists []; split; [reflexivity|constructor]|]; eapply rds_cons; [exists []; split; [reflexivity|constructor]|]; eapply rds_cons; [eapply rd_lab, rd_choice, rd_act; [eapply rds_cons; [eapply rd_lab, R|]; eapply rds_cons; [apply FreeLex.eof_reads|apply rds_nil]|reflexivity]|apply rds_nil]|].
    intros t. cbn [run_action]. reflexivity.
Qed.

End Config.

(** ** Dropped plugins *)
Lemma lost_all n : lost_reads (lost n).
Proof.
  induction n as [|n IH]; intros m t u H; [now left|]. destruct H as [H|(c & x & Hx & W)]; [now left|right].
  destruct W as (g & i & -> & G & W). apply (written_app (lost n)) in W as (j & Wp & W).
  assert (N : nogap i). { destruct x as [xp xn xl xc xf]. destruct Wp as (w & -> & _). eapply firstc_nogap; [exact namec_plain|]. apply firstc_app, name_first, Hx. }
  exists i, j, (shape_plugin x). split; [now apply gap_xskip|]. split.
  - eapply rd_choice. eapply (xplugin_reads (LO := lost n)); [exact Hx| |now apply xskip_none|exact Wp]. apply Forall_forall. intros a _. exact (xvalue_reads (HLO := IH) a).
  - destruct m; [|exact W]. destruct W as (g2 & w & -> & G2 & w2 & -> & W). change (w2 = u) in W. subst w2. exists g2. split; [reflexivity|exact G2].
Qed.

(** ** Shapes *)
Lemma map_all {A B} (f g : A -> B) l : Forall (fun x => f x = g x) l -> map f l = map g l.
Proof. induction 1; cbn; congruence. Qed.
Lemma shape_attr_eq a : bare_attr (strip_attr a) = shape_attr a.
Proof.
  induction a as [|s|v|p nm l c f IH|p nm l c f IH|p nm v c IH] using attr_ind'; try reflexivity.
  - cbn [strip_attr bare_attr shape_attr]. rewrite map_map. now rewrite (map_all _ _ _ IH).
  - cbn [strip_attr bare_attr shape_attr]. rewrite map_map. f_equal. apply map_all. eapply Forall_impl; [|exact IH]. intros [ep k w ec] E. cbn in *. rewrite E. destruct k; reflexivity.
  - destruct v as [vp vn vl vc vf]. cbn [strip_attr strip_plugin bare_attr bare_plugin shape_attr shape_plugin pattrs] in *. rewrite map_map. now rewrite (map_all _ _ _ IH).
Qed.
Lemma shape_plugin_eq x : bare_plugin (strip_plugin x) = shape_plugin x.
Proof. destruct x as [p n l c f]. cbn. rewrite map_map. f_equal. apply map_all, Forall_forall. intros a _. apply shape_attr_eq. Qed.
Lemma shape_rvalue_eq r : bare_rvalue (strip_rvalue r) = shape_rvalue r.
Proof. destruct r as [|x|x|x|p m l c f|x]; try reflexivity. cbn. rewrite map_map. f_equal. apply map_all, Forall_forall. intros a _. apply shape_attr_eq. Qed.
Lemma shape_cexpr_eq e : bare_cexpr (strip_cexpr e) = shape_cexpr e.
Proof.
  induction e as [|p bo c IH|p bo c IH|p bo x|p bo l r|p bo l r|p bo r|p bo l o r|p bo l o r] using cexpr_ind'; try reflexivity;
    try (cbn [strip_cexpr bare_cexpr shape_cexpr]; rewrite !shape_rvalue_eq; try (destruct r); reflexivity).
  - destruct c as [l]. cbn in *. rewrite map_map. now rewrite (map_all _ _ _ IH).
  - destruct c as [l]. cbn in *. rewrite map_map. now rewrite (map_all _ _ _ IH).
Qed.
Lemma shape_cond_eq c : bare_cond (strip_cond c) = shape_cond c.
Proof. destruct c as [l]. cbn. rewrite map_map. f_equal. apply map_all, Forall_forall. intros a _. apply shape_cexpr_eq. Qed.
Lemma shape_bop_eq x : bare_bop (strip_bop x) = shape_bop x.
Proof.
  induction x as [|p|p|ib es e IHi IHes IHe] using bop_ind'; [reflexivity| | |].
  - cbn. now rewrite shape_plugin_eq.
  - cbn. now rewrite shape_plugin_eq.
  - cbn [strip_bop bare_bop shape_bop]. f_equal.
    + destruct ib. cbn in *. rewrite shape_cond_eq, map_map. now rewrite (map_all _ _ _ IHi).
    + rewrite map_map. apply map_all. eapply Forall_impl; [|exact IHes]. intros [p c l cm ft] E. cbn in *. rewrite shape_cond_eq, map_map. now rewrite (map_all _ _ _ E).
    + destruct e. cbn in *. rewrite map_map. now rewrite (map_all _ _ _ IHe).
Qed.
Lemma shape_section_eq s : bare_section (strip_section s) = shape_section s.
Proof. unfold bare_section, strip_section, shape_section. cbn. rewrite map_map. f_equal. apply map_ext. apply shape_bop_eq. Qed.
Lemma shape_config_eq c : cf_warnings (bare_config (strip_config c)) = [] -> cf_foot (bare_config (strip_config c)) = [] -> bare_config (strip_config c) = shape_config c.
Proof.
  intros H K. unfold bare_config, strip_config, shape_config in *. cbn in *. rewrite H, !map_map. f_equal; apply map_ext; apply shape_section_eq.
Qed.
Lemma shape_drop c : shape_config (drop_warnings c) = shape_config c.
Proof. reflexivity. Qed.

(** ** Parsing *)
Theorem parse_written opts ff ss foot data : Forall xsec ss -> Written.written (pc_config ss foot) data [] ->
  k_entry (config_of opts) = "init"%string -> k_max (config_of opts) = 0%N -> utf8_text data \/ k_invalid (config_of opts) = true ->
  exists c ff', parse opts ff data = (Returned (VConfig c) [], ff') /\ shape_config c = shaped ss.
Proof.
  intros H (n & W) He Hm Hu. set (o1 := opts ++ [OptExceptionalCommentsWarning false]). set (o2 := o1 ++ [OptIgnoreComments true]).
  assert (K1 : config_of o1 = PCfg (k_max (config_of opts)) (k_entry (config_of opts)) (k_invalid (config_of opts)) (k_recover (config_of opts)) (k_ignore (config_of opts)) false).
  { unfold o1, config_of. rewrite fold_left_app. fold (config_of opts). now destruct (config_of opts). }
  assert (K2 : config_of o2 = PCfg (k_max (config_of opts)) (k_entry (config_of opts)) (k_invalid (config_of opts)) (k_recover (config_of opts)) true false).
  { unfold o2, config_of. rewrite fold_left_app. fold (config_of o1). now rewrite K1. }
  assert (P2 : exists c2, fst (parse o2 ff data) = Returned (VConfig c2) [] /\ bare_config c2 = shaped ss).
  { destruct (xinit (HLO := lost_all n) ss foot data H W) as (en & t & E & O). rewrite app_nil_r in E. subst t.
    destruct (reads_peg true rules _ _ _ _ _ O (start_pt data)) as (v0 & en1 & q & D & _ & Bv). { now rewrite start_rest, app_nil_r. }
    destruct (parse_peg o2 ff data) as (r & R & K); try (rewrite K2; assumption || reflexivity). rewrite K2 in R. cbn [k_ignore] in R. rewrite gen_init_e, rules_are_generated in R.
    pose proof (peg_fun _ _ _ _ _ _ _ R D) as X. subst r. cbn in K.
    destruct v0; try discriminate Bv. assert (X : bare_config c = shaped ss) by (cbn [bare] in Bv; congruence). eauto. }
  destruct P2 as (c2 & E2 & B2).
  destruct (parse_strip o1 o2 ff data) as [A1 _]; try (now rewrite K1, K2); [now rewrite K2|].
  rewrite E2 in A1. destruct (parse_warn opts o1 ff data) as [A2 _]; try (rewrite K1; reflexivity || assumption); [exact He|].
  destruct (fst (parse o1 ff data)) as [v1 l1| |]; try discriminate A1. cbn in A1. injection A1 as A1 L1. destruct v1; try discriminate A1. cbn in A1. injection A1 as A1. symmetry in L1. apply map_eq_nil in L1. subst l1.
  destruct (parse opts ff data) as [r ff'] eqn:E. cbn [fst] in A2. destruct r as [v l| |]; try discriminate A2. cbn in A2. injection A2 as A2 L2. subst l. destruct v; try discriminate A2. cbn in A2.
  exists c0, ff'. split; [reflexivity|]. injection A2 as X1 X2 X3 X4.
  assert (S : shape_config c0 = shape_config c). { unfold shape_config. now rewrite X1, X2, X3. } rewrite S, <- shape_config_eq, <- A1, B2; [reflexivity| |].
  - rewrite <- A1, B2. reflexivity.
  - rewrite <- A1, B2. reflexivity.
Qed.
