(** Plugins, branches and sections as the printer writes them, read back. *)
From Coq Require Import List NArith Bool String Arith Lia.
From Verif Require Import Bytes Utf8 F64 Ast Peg Actions Engine AstPrint AstInd EscapeFacts QuoteFacts SimpleFacts PosFacts Matches PegSem LexFacts Tree Rules Bare Reads Lines NumPrint Layout ReadLex ReadGap ReadCom ReadVal ReadCond.
Import ListNotations.

(** ** The tree that is read back *)
Fixpoint re_bop (x : bop) : bop :=
  match x with
  | BNil => BNil
  | BPlugin p | BPluginPtr p => BPlugin (re_plugin p)
  | BBranch i es e => BBranch (re_if i) (map re_if es) (re_else e)
  end
with re_if (x : ifblock) : ifblock :=
  match x with IfB _ c l com foot => IfB zero_pos (re_cond c) (map re_bop l) (norm com) (norm foot) end
with re_else (x : elseblock) : elseblock :=
  match x with ElB _ l com foot => ElB zero_pos (map re_bop l) (norm com) (norm foot) end.
Definition bop_val (x : bop) : val :=
  match x with BNil => VNil | BPlugin p | BPluginPtr p => VPlugin p | BBranch i es e => VBranch i es e end.
Definition set_if_com (i : ifblock) (com : cblock) : ifblock := match i with IfB p c l _ f => IfB p c l com f end.
Definition set_else_com (e : elseblock) (com : cblock) : elseblock := match e with ElB p l _ f => ElB p l com f end.
Definition set_bop_com (x : bop) (com : cblock) : bop :=
  match x with
  | BNil => BNil
  | BPlugin p => BPlugin (set_plugin_com p com)
  | BPluginPtr p => BPluginPtr (set_plugin_com p com)
  | BBranch i es e => BBranch (set_if_com i com) es e
  end.

(** ** The text after the comments *)
Definition bcom (x : bop) : cblock :=
  match x with
  | BNil => []
  | BPlugin p | BPluginPtr p => plugin_com p
  | BBranch (IfB _ _ _ com _) _ _ => com
  end.
Definition telse (n : nat) (e : elseblock) : bytes :=
  match e with
  | ElB _ [] [] [] => []
  | ElB _ l com foot => tintro n com ++ b "else " ++ tblock n (tbops (S n) l) foot
  end.
Definition tif (n : nat) (i : ifblock) : bytes :=
  match i with IfB _ c l _ foot => b "if " ++ tcond n c ++ b " " ++ tblock n (tbops (S n) l) foot end.
Definition icom (i : ifblock) : cblock := match i with IfB _ _ _ com _ => com end.
Definition bcore (n : nat) (x : bop) : bytes :=
  match x with
  | BNil => []
  | BPlugin p | BPluginPtr p => tplugin n p
  | BBranch i es e => tif n i ++ flat_map (telseif n) es ++ telse n e
  end.
Lemma tbop_core n x : x <> BNil -> tbop n x = tcoms n (bcom x) ++ ind n ++ bcore n x.
Proof.
  destruct x as [|p|p|i es e]; intros N; [congruence|destruct p; reflexivity|destruct p; reflexivity|].
  destruct i as [ip c l com foot], e as [ep el ecom efoot].
  assert (E : telse n (ElB ep el ecom efoot) = match el, ecom, efoot with [], [], [] => [] | _, _, _ => tintro n ecom ++ b "else " ++ tblock n (tbops (S n) el) efoot end) by (destruct el, ecom, efoot; reflexivity).
  cbn [bcore tif bcom]. rewrite E, <- !app_assoc. reflexivity.
Qed.
Lemma telseif_core n i : telseif n i = tintro n (icom i) ++ b "else " ++ tif n i.
Proof. destruct i as [p c l com foot]. reflexivity. Qed.
Lemma intro_gap n com s : com_ok com -> nogap s -> gap_to (tintro n com ++ s) com s.
Proof.
  intros H G. destruct com as [|c com]; [exact (gap_coms 0 0 [] 1 s (Forall_nil _) G)|].
  unfold tintro. rewrite <- !app_assoc. exact (gap_coms 1 n (c :: com) (n + n) s H G).
Qed.
Lemma intro_delim n com s : delim (tintro n com ++ s).
Proof. destruct com; cbn; auto. Qed.

(** ** Words that start like a keyword *)
Lemma find_ifCond : find_rule "ifCond" rules = Some ifCond_e. Proof. reflexivity. Qed.
Lemma find_elseIf : find_rule "elseIf" rules = Some elseIf_e. Proof. reflexivity. Qed.
Lemma find_elseCond : find_rule "elseCond" rules = Some elseCond_e. Proof. reflexivity. Qed.
Lemma find_bop : find_rule "branchOrPlugin" rules = Some branchOrPlugin_e. Proof. reflexivity. Qed.
Fixpoint strip (k s : bytes) : option bytes :=
  match k, s with
  | [], _ => Some s
  | x :: k', y :: s' => if N.eqb x y then strip k' s' else None
  | _ :: _, [] => None
  end.
Lemma strip_some k s t : strip k s = Some t <-> s = k ++ t.
Proof.
  revert s. induction k as [|x k IH]; intros s; cbn; [split; congruence|]. destruct s as [|y s]; [split; discriminate|]. destruct (N.eqb_spec x y) as [->|E].
  - rewrite IH. split; [intros ->; reflexivity|intros X; now inversion X].
  - split; [discriminate|intros X; inversion X; congruence].
Qed.
Lemma lit_cases w en s : Forall (fun r => r < 128)%N (b w) -> no (lit w) en s \/ exists t, s = b w ++ t /\ rd (lit w) en s (VBytes (b w)) en t.
Proof.
  intros A. destruct (strip (b w) s) as [t|] eqn:E.
  - apply strip_some in E. right. exists t. split; [exact E|]. rewrite E. now apply rd_lit.
  - left. apply no_lit; [exact A|]. intros t ->. assert (X : strip (b w) (b w ++ t) = Some t) by now apply strip_some. congruence.
Qed.
(** after a word and a blank: a brace *)
Definition wordbrace (t s : bytes) : Prop := t = [] \/ exists c u, t = c :: u /\ word_char c /\ ~ digit c /\ (c = 45%N -> u = [] \/ exists d w, u = d :: w /\ word_char d /\ ~ digit d).
Lemma brace_skip s : skip_to (SP :: 123%N :: s) (123%N :: s).
Proof. apply skip_sp, nogap_plain, plain_close. Qed.
Lemma word_skip t s : wordbrace t s -> exists s', skip_to (t ++ SP :: 123%N :: s) s' /\ no_rv s' /\ first_not [40; 33]%N s'.
Proof.
  intros [-> | (c & u & -> & W & D & H)].
  - exists (123%N :: s). split; [apply brace_skip|]. split; [split; [differ|split; [split; reflexivity|exact Logic.I]]|differ].
  - exists (c :: u ++ SP :: 123%N :: s). split; [apply skip_none, nogap_plain; now apply word_is_plain|]. unfold word_char, bareword_char, bareword_start, digit in *.
    split; [split; [cbn; unfold DQ, SQ; lia|split]|cbn; lia].
    + split; [cbn; lia|]. apply class_miss. cls. lia.
    + destruct (N.eq_dec c 45) as [-> | Nc].
      * destruct (H eq_refl) as [-> | (d & w & -> & Wd & Hd)]; [split; reflexivity|]. unfold word_char, bareword_char, bareword_start, digit in *. split; [cbn; lia|]. apply class_miss. cls. lia.
      * destruct c as [|p]; [exact Logic.I|]. do 6 (destruct p as [p|p|]; try exact Logic.I). now elim Nc.
Qed.
Lemma if_word_no t s en es : wordbrace t s -> nos ([gaps_e; warn_e; ELab "cond" (ERef "condition")] ++ es) en (t ++ SP :: 123%N :: s).
Proof.
  intros W. destruct (word_skip t s W) as (s' & K & H1 & H2). destruct (skip_gaps _ _ en K) as (v & R). cbn [app]. eapply nos_rd; [exact R|]. apply nos_warn, nos_here, no_lab. now apply condition_no.
Qed.
(** the names of plugins are no keywords *)
Lemma digit_dec c : digit c \/ ~ digit c. Proof. unfold digit. lia. Qed.
Lemma keyword_rest n k t : word n -> n = k ++ t -> ~ numeral t -> forall s, wordbrace t s.
Proof.
  intros [_ W] E H s. destruct t as [|c t]; [now left|]. right. exists c, t. split; [reflexivity|]. rewrite E in W. apply Forall_app in W as [_ W]. inversion W; subst.
  split; [assumption|]. split; [intros X; apply H; exists c, t; auto|]. intros ->. destruct t as [|d u]; [now left|right]. exists d, u. split; [reflexivity|]. inversion H3; subst. split; [assumption|]. intros X. apply H. exists d, u. auto.
Qed.
Lemma quote_nolit q c w en s : In q [DQ; SQ] -> ~ In c [DQ; SQ] -> Forall (fun r => r < 128)%N (c :: w) -> forall nm, no (ELit nm (c :: w)) en (q :: s).
Proof. intros H N A nm. apply no_chr; [exact A|]. intros [E|[]]. subst. now apply N. Qed.
Lemma ifCond_no n s en : name_ok n -> ~ if_like n -> no (ERef "ifCond") en (n ++ SP :: 123%N :: s).
Proof.
  intros [W|(q & v & Hq & Hv & ->)] H; apply no_ref with (1 := find_ifCond), no_act, no_seq.
  - destruct (lit_cases "if" [] (n ++ SP :: 123%N :: s)) as [N|(t & E & R)]; [repeat constructor|now apply nos_here|].
    eapply nos_rd; [exact R|]. assert (P : exists t0, n = b "if" ++ t0 /\ t = t0 ++ SP :: 123%N :: s).
    { destruct W as [Nn W]. destruct n as [|c1 n]; [congruence|]. cbn [app] in E. change (b "if") with [105; 102]%N in *. cbn [app] in E. injection E as -> E.
      destruct n as [|c2 n]; [discriminate|]. cbn [app] in E. injection E as -> E. exists n. split; [reflexivity|congruence]. }
    destruct P as (t0 & En & ->). apply (if_word_no t0 s _ _). eapply keyword_rest; eauto. intros X. apply H. now exists t0.
  - apply nos_here. apply quote_nolit; [exact Hq|differ|repeat constructor].
Qed.
Lemma else_no n s en : name_ok n -> ~ else_like n -> no (ERef "elseIf") en (n ++ SP :: 123%N :: s) /\ no (ERef "elseCond") en (n ++ SP :: 123%N :: s).
Proof.
  intros [W|(q & v & Hq & Hv & ->)] H.
  - destruct (lit_cases "else" [] (n ++ SP :: 123%N :: s)) as [N|(t & E & R)]; [repeat constructor| |].
    { split; [apply no_ref with (1 := find_elseIf)|apply no_ref with (1 := find_elseCond)]; now apply no_act, no_seq, nos_here. }
    assert (P : exists t0, n = b "else" ++ t0 /\ t = t0 ++ SP :: 123%N :: s /\ t0 <> []).
    { destruct W as [Nn W]. change (b "else") with [101; 108; 115; 101]%N in *. cbn [app] in E.
      destruct n as [|c1 n]; [congruence|]. cbn [app] in E. injection E as -> E. destruct n as [|c2 n]; [discriminate|]. cbn [app] in E. injection E as -> E.
      destruct n as [|c3 n]; [discriminate|]. cbn [app] in E. injection E as -> E. destruct n as [|c4 n]; [discriminate|]. cbn [app] in E. injection E as -> E.
      exists n. split; [reflexivity|]. split; [congruence|]. intros ->. apply H. now left. }
    destruct P as (t0 & En & -> & N0). assert (W0 : exists c u, t0 = c :: u /\ word_char c).
    { destruct t0 as [|c u]; [congruence|]. exists c, u. split; [reflexivity|]. destruct W as [_ W]. rewrite En in W. apply Forall_app in W as [_ W]. now inversion W. }
    destruct W0 as (c & u & Et & Wc). assert (K : skip_to (t0 ++ SP :: 123%N :: s) (t0 ++ SP :: 123%N :: s)) by (rewrite Et; apply skip_none, nogap_plain; now apply word_is_plain).
    destruct (skip_gaps _ _ [] K) as (v & R1).
    split; [apply no_ref with (1 := find_elseIf)|apply no_ref with (1 := find_elseCond)]; apply no_act, no_seq; (eapply nos_rd; [exact R|]; eapply nos_rd; [exact R1|]; apply nos_warn).
    + destruct (lit_cases "if" [] (t0 ++ SP :: 123%N :: s)) as [N|(t & E2 & R2)]; [repeat constructor|now apply nos_here|]. eapply nos_rd; [exact R2|].
      assert (P : exists t1, t0 = b "if" ++ t1 /\ t = t1 ++ SP :: 123%N :: s).
      { clear -E2 N0. destruct t0 as [|c1 n]; [congruence|]. cbn [app] in E2. change (b "if") with [105; 102]%N in *. cbn [app] in E2. injection E2 as -> E2.
        destruct n as [|c2 n]; [discriminate|]. cbn [app] in E2. injection E2 as -> E2. exists n. split; [reflexivity|congruence]. }
      destruct P as (t1 & E3 & ->). apply (if_word_no t1 s _ _). assert (E4 : n = b "elseif" ++ t1) by (rewrite En, E3; reflexivity). eapply (keyword_rest n (b "elseif")); eauto. intros X. apply H. right. now exists t1.
    + apply nos_here, no_chr; [repeat constructor|]. rewrite Et. cbn. unfold word_char, bareword_char, bareword_start in Wc. lia.
  - split; [apply no_ref with (1 := find_elseIf)|apply no_ref with (1 := find_elseCond)]; apply no_act, no_seq, nos_here; (apply quote_nolit; [exact Hq|differ|repeat constructor]).
Qed.

(** ** What follows a plugin or branch *)
Definition no_else (s : bytes) : Prop := forall en, no (ERef "elseIf") en s /\ no (ERef "elseCond") en s.
Definition bfollow (s : bytes) : Prop := exists s', skip_to s s' /\ no_else s'.
Definition headc (c : N) : Prop := namec c.
Lemma tplugin_name n p : exists t, tplugin n p = (match p with Plugin _ nm _ _ _ => nm end) ++ SP :: 123%N :: t.
Proof. destruct p as [pp nm l c f]. eexists. reflexivity. Qed.
Lemma bcore_first n x s : pr_bop x -> firstc namec (bcore n x ++ s).
Proof.
  destruct x as [|p|p|i es e]; cbn [pr_bop bcore]; intros H.
  - contradiction.
  - apply firstc_app, tplugin_first, H.
  - apply firstc_app, tplugin_first, H.
  - destruct i as [ip c l com foot]. exists 105%N. eexists. split; [reflexivity|]. unfold namec, word_char, bareword_char, bareword_start. lia.
Qed.
Lemma bcore_gap n x s : pr_bop x -> nogap (bcore n x ++ s).
Proof. intros H. eapply firstc_nogap; [exact namec_plain|]. now apply bcore_first. Qed.
Definition open_branch (x : bop) : Prop := match x with BBranch _ _ e => else_empty e | _ => False end.
Definition no_else_name (x : bop) : Prop := match x with BPlugin p | BPluginPtr p => ~ else_like (pname p) | _ => True end.
Lemma beside_open x y : beside x y -> open_branch x -> no_else_name y.
Proof. destruct x, y; cbn; auto; contradiction. Qed.
Lemma bcore_no_else n x s : pr_bop x -> no_else_name x -> no_else (bcore n x ++ s).
Proof.
  assert (P : forall p, pr_item p -> ~ else_like (pname p) -> no_else (tplugin n p ++ s)).
  { intros p [H _] K en. destruct (tplugin_name n p) as (t & ->). destruct p as [pp nm l c f]. rewrite <- app_assoc. cbn [app]. apply else_no; [apply H|exact K]. }
  destruct x as [|p|p|i es e]; cbn [pr_bop bcore no_else_name]; intros H N; try (now apply P); try contradiction.
  destruct i as [ip c l com foot]. intros en. split; [apply no_ref with (1 := find_elseIf)|apply no_ref with (1 := find_elseCond)]; apply no_act, no_seq, nos_here, no_chr; repeat constructor; differ.
Qed.
Lemma closer_no_else s : no_else (125%N :: s).
Proof. intros en. split; [apply no_ref with (1 := find_elseIf)|apply no_ref with (1 := find_elseCond)]; apply no_act, no_seq, nos_here, no_chr; repeat constructor; differ. Qed.
Lemma bop_com_ok x : pr_bop x -> com_ok (bcom x).
Proof. destruct x as [|p|p|[ip c l com foot] es e]; cbn; try tauto; destruct p; cbn; unfold pr_item; cbn; tauto. Qed.
Lemma pr_not_nil x : pr_bop x -> x <> BNil. Proof. now intros H ->. Qed.

(** ** Lists of plugins and branches *)
Definition Breads (x : bop) : Prop := forall n gi com s, pr_bop x -> (open_branch x -> bfollow s) -> gap_to gi com (bcore n x ++ s) ->
  rd (ERef "branchOrPlugin") [] gi (bop_val (set_bop_com (re_bop x) (norm com))) [] s.
Lemma join_lines {A} (f : A -> bytes) l : forall x, join [NL] (map (fun y => f y ++ [NL]) (x :: l)) = (f x ++ flat_map (fun y => NL :: NL :: f y) l) ++ [NL].
Proof.
  induction l as [|y l IH]; intros x; [cbn; now rewrite app_nil_r|].
  change (join [NL] (map (fun y => f y ++ [NL]) (x :: y :: l))) with ((f x ++ [NL]) ++ [NL] ++ join [NL] (map (fun y => f y ++ [NL]) (y :: l))).
  rewrite (IH y). cbn [flat_map]. rewrite <- !app_assoc. cbn [app]. rewrite <- ?app_assoc. reflexivity.
Qed.
Lemma bops_lines n x l : exists J, tbops n (x :: l) = J ++ [NL] /\ J = tbop n x ++ flat_map (fun y => NL :: NL :: tbop n y) l.
Proof. eexists. split; [|reflexivity]. apply join_lines. Qed.
Definition re_com (x : bop) : bop := set_bop_com (re_bop x) (norm (bcom x)).
Lemma re_com_same x : pr_bop x -> re_com x = re_bop x.
Proof. destruct x as [|p|p|[ip c l com foot] es e]; [reflexivity|destruct p; reflexivity|destruct p; reflexivity|reflexivity]. Qed.
Lemma bop_no c s gi en : closer c -> skip_to gi (c :: s) -> no (ERef "branchOrPlugin") en gi.
Proof.
  intros Hc K. destruct (closer_no c s Hc) as (H1 & H2 & _ & _ & _ & H6). apply no_ref with (1 := find_bop). apply no_choice; [|apply no_choice; [|apply no_none]].
  - apply no_ref with (1 := find_branch), no_act, no_seq. destruct K as (v & R). eapply nos_rd; [eapply rd_lab, (R [])|]. apply nos_here, no_lab, no_ref with (1 := find_ifCond), no_act, no_seq, nos_here.
    eapply first_not_lit; [|repeat constructor|exact H6]. cbv. auto 10.
  - apply no_ref with (1 := find_plugin). eapply plugin_no_name; eauto.
Qed.
(** one element, after [k] line ends *)
Lemma bop_line_gap k n x T : pr_bop x -> gap_to (repeat NL k ++ tbop n x ++ T) (bcom x) (bcore n x ++ T).
Proof.
  intros H. rewrite (tbop_core n x (pr_not_nil x H)), <- !app_assoc. apply gap_coms; [now apply bop_com_ok|now apply bcore_gap].
Qed.
Lemma block_item k n x T : pr_bop x -> Breads x -> (open_branch x -> bfollow T) ->
  exists en', rd block_bop_e [] (repeat NL k ++ tbop n x ++ T) (bop_val (re_bop x)) en' T.
Proof.
  intros H V F. destruct (bop_line_gap k n x T H) as (v & R & S1 & S2). specialize (V n _ [] T H F (gap_none _ (bcore_gap n x T H))).
  eexists. eapply rd_act.
  - eapply rds_cons; [eapply rd_lab, R|]. eapply rds_cons; [eapply rd_lab, V|apply rds_nil].
  - intros t. cbn [run_action].
    change (act_bop_comment (bop_val (set_bop_com (re_bop x) (norm []))) v = RVal (bop_val (re_bop x))).
    destruct x as [|p|p|[ip c l com foot] es e]; [contradiction| | |]; cbn [re_bop set_bop_com bop_val act_bop_comment]; try (destruct p); cbn [re_plugin set_plugin_com re_if set_if_com]; now rewrite S1.
Qed.
Definition sec_item_e : expr := EAct (ARet "bop") (ELab "bop" (ERef "branchOrPlugin")).
Lemma section_item k n x T : pr_bop x -> Breads x -> (open_branch x -> bfollow T) ->
  exists en', rd sec_item_e [] (repeat NL k ++ tbop n x ++ T) (bop_val (re_bop x)) en' T.
Proof.
  intros H V F. specialize (V n _ _ T H F (bop_line_gap k n x T H)). eexists. eapply rd_act1; [eapply rd_lab, V|]. intros t. change (RVal (bop_val (re_com x)) = RVal (bop_val (re_bop x))). now rewrite re_com_same.
Qed.
Lemma items_follow n x0 l C foot s : Forall pr_bop l -> apart (x0 :: l) -> Clos C foot 125%N s -> open_branch x0 -> bfollow (flat_map (fun y => NL :: NL :: tbop n y) l ++ C).
Proof.
  intros H [A _] K O. destruct H as [|x l Hx H]; [destruct K as [_ G]; exists (125%N :: s); split; [eapply gap_skip, G|apply closer_no_else]|].
  cbn [flat_map app]. rewrite <- app_assoc. eexists. split; [eapply gap_skip; exact (bop_line_gap 2 n x _ Hx)|]. apply bcore_no_else; [exact Hx|exact (beside_open _ _ A O)].
Qed.
Definition item_e (e : expr) : Prop := (forall k n x T, pr_bop x -> Breads x -> (open_branch x -> bfollow T) -> exists en', rd e [] (repeat NL k ++ tbop n x ++ T) (bop_val (re_bop x)) en' T) /\
  forall gi s, skip_to gi (125%N :: s) -> no e [] gi.
Lemma block_is_item : item_e block_bop_e.
Proof.
  split; [exact block_item|]. intros gi s K. apply no_act, no_seq. destruct K as (v & R). eapply nos_rd; [eapply rd_lab, (R [])|]. apply nos_here, no_lab. eapply (bop_no 125%N s); [now right|]. apply skip_none, nogap_plain, plain_close.
Qed.
Lemma section_is_item : item_e sec_item_e.
Proof. split; [exact section_item|]. intros gi s K. apply no_act, no_lab. eapply (bop_no 125%N s); [now right|exact K]. Qed.
Lemma items_read e n l C foot s : item_e e -> Forall (fun x => pr_bop x /\ Breads x) l -> apart l -> Clos C foot 125%N s ->
  rdt e (flat_map (fun y => NL :: NL :: tbop n y) l ++ C) (map (fun x => bop_val (re_bop x)) l) C.
Proof.
  intros [I1 I2] H A K. induction H as [|x l [Hx Vx] H IH].
  - cbn [flat_map app map]. apply rdt_stop. destruct K as [_ G]. eapply I2, gap_skip, G.
  - cbn [flat_map map]. rewrite <- app_assoc. assert (F : open_branch x -> bfollow (flat_map (fun y => NL :: NL :: tbop n y) l ++ C)). { eapply items_follow; [|exact A|exact K]. eapply Forall_impl; [|exact H]. now intros a [Ha _]. }
    destruct (I1 2 n x _ Hx Vx F) as (en' & R). eapply rdt_more; [exact R|exact (IH (proj2 A))].
Qed.
(** the inside of braces *)
Lemma body_reads e n l b0 foot s : item_e e -> com_ok foot -> Forall (fun x => pr_bop x /\ Breads x) l -> apart l ->
  exists j, rdt e (tbody n (tbops (S n) l) b0 foot ++ 125%N :: s) (map (fun x => bop_val (re_bop x)) l) j /\ gap_to j foot (125%N :: s).
Proof.
  intros I F H A. destruct H as [|x l [Hx Vx] H].
  - exists (tbody n (tbops (S n) []) b0 foot ++ 125%N :: s). destruct (body_nil n b0 foot 125%N s F (or_intror eq_refl)) as [_ G]. split; [|exact G].
    apply rdt_stop. destruct I as [_ I]. eapply I, gap_skip, G.
  - destruct (bops_lines (S n) x l) as (J & -> & ->). destruct (body_cons n (tbop (S n) x ++ flat_map (fun y => NL :: NL :: tbop (S n) y) l) b0 foot 125%N s F (or_intror eq_refl)) as (C & -> & K & _).
    exists C. split; [|apply K]. assert (Fo : open_branch x -> bfollow (flat_map (fun y => NL :: NL :: tbop (S n) y) l ++ C)). { eapply items_follow; [|exact A|exact K]. eapply Forall_impl; [|exact H]. now intros a [Ha _]. }
    destruct (proj1 I 1 (S n) x _ Hx Vx Fo) as (en' & R). cbn [map]. rewrite <- app_assoc. eapply rdt_more; [exact R|]. eapply items_read; eauto. exact (proj2 A).
Qed.
Lemma as_bops l : Forall pr_bop l -> all_some as_bop (map (fun x => bop_val (re_bop x)) l) = Some (map re_bop l).
Proof.
  induction 1 as [|x l Hx H IH]; [reflexivity|]. cbn [map all_some]. rewrite IH. destruct x; [contradiction|reflexivity|reflexivity|reflexivity].
Qed.
Definition block_tail : list expr := [ELab "bops" (EStar block_bop_e); ELab "footerComment" gap_e; close "}" (fatal "expect closing curly bracket")].
Lemma block_reads n l foot s en : com_ok foot -> Forall (fun x => pr_bop x /\ Breads x) l -> apart l ->
  exists en', rds (lit "{" :: block_tail) en (tblock n (tbops (S n) l) foot ++ s) en' s /\
    branch_or_plugins (lookup "bops" en') = map re_bop l /\ comment_block (lookup "footerComment" en') false false = norm foot /\ lookup "cond" en' = lookup "cond" en.
Proof.
  intros F H A. destruct (body_reads block_bop_e n l true foot s block_is_item F H A) as (j & R & (v & G & S1 & S2)).
  unfold tblock. rewrite <- !app_assoc. change (b "}" ++ s) with (125%N :: s). change (b "{" ++ ?i) with (123%N :: i).
  eexists. split; [|split; [|split]].
  - eapply rds_cons; [apply rd_chr; reflexivity|]. eapply rds_cons; [eapply rd_lab, rd_star, R|]. eapply rds_cons; [eapply rd_lab, G|]. eapply rds_cons; [apply close_reads; reflexivity|apply rds_nil].
  - change (branch_or_plugins (VList (map (fun x => bop_val (re_bop x)) l)) = map re_bop l). unfold branch_or_plugins. cbn [iface_slice]. rewrite as_bops; [reflexivity|]. eapply Forall_impl; [|exact H]. now intros a [Ha _].
  - exact S1.
  - reflexivity.
Qed.

(** ** Branches *)
Definition IfReads (i : ifblock) : Prop := pr_if i /\ Forall (fun x => pr_bop x /\ Breads x) (block i).
Lemma tblock_brace n I foot s : exists t, tblock n I foot ++ s = 123%N :: t.
Proof. eexists. reflexivity. Qed.
Lemma if_tail n c l foot s en : pr_cond c -> com_ok foot -> Forall (fun x => pr_bop x /\ Breads x) l -> apart l ->
  exists en', rds ([lit "if"; gaps_e; warn_e; ELab "cond" (ERef "condition"); gaps_e; warn_e; lit "{"] ++ block_tail) en
    (b "if " ++ tcond n c ++ b " " ++ tblock n (tbops (S n) l) foot ++ s) en' s /\
    branch_or_plugins (lookup "bops" en') = map re_bop l /\ comment_block (lookup "footerComment" en') false false = norm foot /\ lookup "cond" en' = VCond (re_cond c).
Proof.
  intros Hc F H A. change (b " " ++ ?i) with (SP :: i). change (b "if " ++ ?i) with (b "if" ++ SP :: i).
  destruct (block_reads n l foot s (bind "cond" (VCond (re_cond c)) en) F H A) as (en' & R & L1 & L2 & L3).
  destruct (tblock_brace n (tbops (S n) l) foot s) as (t & Et).
  assert (G : nogap (tblock n (tbops (S n) l) foot ++ s)) by (rewrite Et; apply nogap_plain, plain_close).
  destruct (skip_gaps _ _ en (skip_sp _ (tcond_gap n c (SP :: tblock n (tbops (S n) l) foot ++ s) Hc))) as (v1 & R1).
  destruct (skip_gaps _ _ (bind "cond" (VCond (re_cond c)) en) (skip_sp _ G)) as (v2 & R2).
  assert (CF : cfollow (SP :: tblock n (tbops (S n) l) foot ++ s)) by (rewrite Et; apply cfollow_brace).
  exists en'. split; [|split; [exact L1|split; [exact L2|]]].
  - cbn [app]. eapply rds_cons; [apply rd_lit; repeat constructor|]. eapply rds_cons; [exact R1|]. apply rds_warn. eapply rds_cons; [eapply rd_lab, (cond_reads c n _ Hc CF)|].
    eapply rds_cons; [exact R2|]. apply rds_warn. exact R.
  - rewrite L3. reflexivity.
Qed.
Lemma if_reads i n s : IfReads i -> rd (ERef "ifCond") [] (tif n i ++ s) (VIf (set_if_com (re_if i) [])) [] s.
Proof.
  destruct i as [p c l com foot]. intros [(Hc & _ & Hf & _ & A) H]. cbn [block] in H. cbn [tif]. rewrite <- !app_assoc.
  destruct (if_tail n c l foot s [] Hc Hf H A) as (en' & R & L1 & L2 & L3). eapply rd_ref with (1 := find_ifCond). eapply rd_act; [exact R|].
  intros t. cbn [run_action]. rewrite L3. unfold act_if_block. rewrite L1, L2. reflexivity.
Qed.
Lemma elseif_reads i n s : IfReads i -> rd (ERef "elseIf") [] (b "else " ++ tif n i ++ s) (VElseIf (set_if_com (re_if i) [])) [] s.
Proof.
  destruct i as [p c l com foot]. intros [(Hc & _ & Hf & _ & A) H]. cbn [block] in H. cbn [tif]. rewrite <- !app_assoc. change (b "else " ++ ?i) with (b "else" ++ SP :: i).
  destruct (if_tail n c l foot s [] Hc Hf H A) as (en' & R & L1 & L2 & L3).
  destruct (skip_gaps _ _ [] (skip_sp _ (nogap_plain 105%N (b "f " ++ tcond n c ++ b " " ++ tblock n (tbops (S n) l) foot ++ s) ltac:(split; [reflexivity|differ])))) as (v1 & R1).
  eapply rd_ref with (1 := find_elseIf). eapply rd_act; [eapply rds_cons; [apply rd_lit; repeat constructor|]; eapply rds_cons; [exact R1|]; apply rds_warn; exact R|].
  intros t. cbn [run_action]. rewrite L3. unfold act_if_block. rewrite L1, L2. reflexivity.
Qed.
Lemma else_reads p l com foot n s : com_ok foot -> Forall (fun x => pr_bop x /\ Breads x) l -> apart l ->
  rd (ERef "elseCond") [] (b "else " ++ tblock n (tbops (S n) l) foot ++ s) (VElse (set_else_com (re_else (ElB p l com foot)) [])) [] s.
Proof.
  intros Hf H A. change (b "else " ++ ?i) with (b "else" ++ SP :: i). destruct (block_reads n l foot s [] Hf H A) as (en' & R & L1 & L2 & _).
  destruct (tblock_brace n (tbops (S n) l) foot s) as (t & Et).
  assert (G : nogap (tblock n (tbops (S n) l) foot ++ s)) by (rewrite Et; apply nogap_plain, plain_close).
  destruct (skip_gaps _ _ [] (skip_sp _ G)) as (v1 & R1).
  eapply rd_ref with (1 := find_elseCond). eapply rd_act; [eapply rds_cons; [apply rd_lit; repeat constructor|]; eapply rds_cons; [exact R1|]; apply rds_warn; exact R|].
  intros u. cbn [run_action]. unfold act_else_block. rewrite L1, L2. reflexivity.
Qed.
Lemma elseifs_read n es T : Forall IfReads es -> bfollow T \/ (exists com t, com_ok com /\ T = tintro n com ++ b "else " ++ 123%N :: t) ->
  rdt more_elseif_e (flat_map (telseif n) es ++ T) (map (fun i => VElseIf (re_if i)) es) T.
Proof.
  intros H F. induction H as [|i es Hi H IH].
  - cbn [flat_map app map]. apply rdt_stop, no_act, no_seq. destruct F as [(s' & (v & R) & N)|(com & t & Hc & ->)].
    + eapply nos_rd; [eapply rd_lab, (R [])|]. apply nos_here, no_lab, N.
    + destruct (intro_gap n com (b "else " ++ 123%N :: t) Hc) as (v & R & _); [apply nogap_plain; split; [reflexivity|differ]|].
      eapply nos_rd; [eapply rd_lab, (R [])|]. apply nos_here, no_lab, no_ref with (1 := find_elseIf), no_act, no_seq.
      destruct (skip_gaps _ _ [] (brace_skip t)) as (v1 & R1).
      eapply nos_rd; [apply (rd_lit _ (b "else") [] (SP :: 123%N :: t)); repeat constructor|]. eapply nos_rd; [exact R1|]. apply nos_warn, nos_here. no_lits.
  - cbn [flat_map map]. rewrite <- app_assoc, telseif_core, <- !app_assoc. destruct Hi as [Pi Bi]. assert (Hc : com_ok (icom i)) by (destruct i; apply Pi).
    destruct (intro_gap n (icom i) (b "else " ++ tif n i ++ flat_map (telseif n) es ++ T) Hc) as (v & R & S1 & S2); [apply nogap_plain; split; [reflexivity|differ]|].
    eapply rdt_more; [|exact IH]. eapply rd_act; [eapply rds_cons; [eapply rd_lab, R|]; eapply rds_cons; [eapply rd_lab, elseif_reads; split; [exact Pi|exact Bi]|apply rds_nil]|].
    intros t. cbn [run_action]. change (act_else_if_comment (VElseIf (set_if_com (re_if i) [])) v = RVal (VElseIf (re_if i))). destruct i as [p c l com foot]. cbn [re_if set_if_com act_else_if_comment]. now rewrite S1.
Qed.
Lemma else_ifs_ok es : else_ifs_loop (map (fun i => VElseIf (re_if i)) es) = inl (map re_if es).
Proof. induction es as [|i es IH]; [reflexivity|]. cbn [map else_ifs_loop]. now rewrite IH. Qed.
Lemma else_part n e s : pr_else e -> Forall (fun x => pr_bop x /\ Breads x) (eblock e) -> (else_empty e -> bfollow s) ->
  exists v, rd (EOpt else_e) [] (telse n e ++ s) v [] s /\ (match v with VNil => Some zero_else | VElse x => Some x | _ => None end) = Some (re_else e) /\
    (bfollow (telse n e ++ s) \/ exists com t, com_ok com /\ telse n e ++ s = tintro n com ++ b "else " ++ 123%N :: t).
Proof.
  destruct e as [p l com foot]. intros (Hc & Hf & _ & A) H F. cbn [eblock] in H.
  assert (D : (l = [] /\ com = [] /\ foot = []) \/ telse n (ElB p l com foot) = tintro n com ++ b "else " ++ tblock n (tbops (S n) l) foot) by (destruct l, com, foot; auto).
  destruct D as [(-> & -> & ->)|E].
  - specialize (F (conj eq_refl (conj eq_refl eq_refl))). cbn [telse app]. exists VNil. split; [|split; [reflexivity|now left]]. apply rd_opt_none. destruct F as (s' & (v & R) & N). apply no_act, no_seq. eapply nos_rd; [eapply rd_lab, (R [])|]. apply nos_here, no_lab, N.
  - rewrite E, <- !app_assoc. destruct (intro_gap n com (b "else " ++ tblock n (tbops (S n) l) foot ++ s) Hc) as (v & R & S1 & S2); [apply nogap_plain; split; [reflexivity|differ]|].
    exists (VElse (re_else (ElB p l com foot))). split; [|split; [reflexivity|]].
    + eapply rd_opt, rd_act; [eapply rds_cons; [eapply rd_lab, R|]; eapply rds_cons; [eapply rd_lab, (else_reads p l com foot n s Hf H A)|apply rds_nil]|].
      intros t. change (act_else_comment (VElse (set_else_com (re_else (ElB p l com foot)) [])) v = RVal (VElse (re_else (ElB p l com foot)))). cbn [re_else set_else_com act_else_comment]. now rewrite S1.
    + right. destruct (tblock_brace n (tbops (S n) l) foot s) as (t & ->). exists com, t. auto.
Qed.
Lemma both_forall {A} (P Q : A -> Prop) l : All P l -> Forall Q l -> Forall (fun x => P x /\ Q x) l.
Proof. intros H K. apply All_F in H. rewrite Forall_forall in *. auto. Qed.
Theorem bop_reads x : Breads x.
Proof.
  assert (P : forall p n gi com s, pr_item p -> gap_to gi com (tplugin n p ++ s) -> rd (ERef "branchOrPlugin") [] gi (VPlugin (set_plugin_com (re_plugin p) (norm com))) [] s).
  { intros p n gi com s [H K] G. eapply rd_ref with (1 := find_bop). apply rd_next.
    - apply no_ref with (1 := find_branch), no_act, no_seq. destruct G as (v & R & _). eapply nos_rd; [eapply rd_lab, (R [])|]. apply nos_here, no_lab.
      destruct (tplugin_name n p) as (t & ->). destruct p as [pp nm l c f]. rewrite <- app_assoc. cbn [app]. apply ifCond_no; [apply H|exact K].
    - eapply rd_choice, plugin_reads; [exact H| |exact G]. apply Forall_forall. intros a _. apply value_reads. }
  induction x as [|p|p|i es e IHi IHes IHe] using bop_ind'; intros n gi com s H F G; cbn [pr_bop] in H.
  - contradiction.
  - now apply (P p n).
  - now apply (P p n).
  - destruct H as (Hi & Hes & He). assert (Ii : IfReads i). { split; [exact Hi|]. destruct i as [ip c l icm foot]. apply both_forall; [apply Hi|exact IHi]. }
    assert (Is : Forall IfReads es). { apply All_F in Hes. rewrite Forall_forall in *. intros x Hx. specialize (Hes x Hx). split; [exact Hes|]. destruct x as [ip c l icm foot]. apply both_forall; [apply Hes|exact (IHes _ Hx)]. }
    assert (Ie : Forall (fun x => pr_bop x /\ Breads x) (eblock e)). { destruct e as [ep l ecm foot]. apply both_forall; [apply He|exact IHe]. }
    cbn [bcore] in G. rewrite <- !app_assoc in G. destruct (else_part n e s He Ie F) as (v & R & E & Fo).
    pose proof (elseifs_read n es _ Is Fo) as M. destruct G as (w & Rw & S1 & S2).
    eapply rd_ref with (1 := find_bop). eapply rd_choice, rd_ref with (1 := find_branch). eapply rd_act.
    + eapply rds_cons; [eapply rd_lab, Rw|]. eapply rds_cons; [eapply rd_lab, (if_reads i n _ Ii)|]. eapply rds_cons; [eapply rd_lab, rd_star, M|]. eapply rds_cons; [eapply rd_lab, R|apply rds_nil].
    + intros t. cbn [run_action re_bop set_bop_com bop_val].
      change (act_branch (VIf (set_if_com (re_if i) [])) (VList (map (fun i => VElseIf (re_if i)) es)) v w = RVal (VBranch (set_if_com (re_if i) (norm com)) (map re_if es) (re_else e))).
      unfold act_branch. cbn [iface_slice]. rewrite else_ifs_ok, E. destruct i as [ip c l icm foot]. cbn [re_if set_if_com]. now rewrite S1.
Qed.

(** ** Sections *)
Definition kind (t : ptype) : bytes := match t with PTInput => b "input" | PTFilter => b "filter" | PTOutput => b "output" | PTUndef => [] end.
Lemma find_section : find_rule "pluginSection" rules = Some pluginSection_e. Proof. reflexivity. Qed.
Definition re_section (s : section) (com : cblock) : section :=
  Section_ zero_pos (ps_type s) (map re_bop (ps_bops s)) com (norm (ps_foot s)).
Definition score (t : ptype) (x : section) : bytes := kind t ++ b " {" ++ tbody 0 (tbops 1 (ps_bops x)) false (ps_foot x) ++ b "}".
Lemma kind_first t s : t <> PTUndef -> firstc bareword_start (kind t ++ s).
Proof.
  intros H. destruct t; try congruence; [exists 105%N, (b "nput" ++ s)|exists 102%N, (b "ilter" ++ s)|exists 111%N, (b "utput" ++ s)]; (split; [reflexivity|red; lia]).
Qed.
Lemma kind_gap t s : t <> PTUndef -> nogap (kind t ++ s).
Proof. intros H. eapply firstc_nogap; [|now apply kind_first]. intros c Hc. apply word_is_plain. left. now left. Qed.
Lemma ptype_reads t s : t <> PTUndef -> rd ptype_e [] (kind t ++ s) (VPType t) [] s.
Proof.
  intros H. destruct t; try congruence; cbn [kind].
  - eapply rd_choice, rd_act1; [apply rd_lit; repeat constructor|reflexivity].
  - eapply rd_next; [no_lits|]. eapply rd_choice, rd_act1; [apply rd_lit; repeat constructor|reflexivity].
  - do 2 (eapply rd_next; [no_lits|]). eapply rd_choice, rd_act1; [apply rd_lit; repeat constructor|reflexivity].
Qed.
Lemma ptype_no s en : first_not [105; 102; 111]%N s -> no ptype_e en s.
Proof.
  intros H. assert (F : forall c, In c [105; 102; 111]%N -> first_not [c] s). { destruct s as [|c0 s]; [intros; exact Logic.I|]. intros c I [E|[]]. apply H. now subst. }
  apply no_choice; [apply no_act, no_chr; [repeat constructor|apply F; now left]|]. apply no_choice; [apply no_act, no_chr; [repeat constructor|apply F; right; now left]|].
  apply no_choice; [apply no_act, no_chr; [repeat constructor|apply F; right; right; now left]|]. apply no_choice; [apply no_soft|apply no_none].
Qed.
Lemma section_reads t x s : t <> PTUndef -> pr_section t x -> rd (ERef "pluginSection") [] (score t x ++ s) (VSection (re_section x [])) [] s.
Proof.
  intros N (Et & _ & Hf & Hl & Ap). assert (H : Forall (fun x => pr_bop x /\ Breads x) (ps_bops x)). { apply All_F in Hl. eapply Forall_impl; [|exact Hl]. intros a Ha. split; [exact Ha|apply bop_reads]. }
  unfold score. rewrite <- !app_assoc. change (b "}" ++ s) with (125%N :: s). change (b " {" ++ ?i) with (SP :: 123%N :: i).
  destruct (body_reads sec_item_e 0 (ps_bops x) false (ps_foot x) s section_is_item Hf H Ap) as (j & R & (v & G & S1 & S2)).
  destruct (skip_gaps _ _ (bind "pt" (VPType t) []) (brace_skip (tbody 0 (tbops 1 (ps_bops x)) false (ps_foot x) ++ 125%N :: s))) as (v1 & R1).
  eapply rd_ref with (1 := find_section). eapply rd_act.
  - eapply rds_cons; [eapply rd_lab, ptype_reads, N|]. eapply rds_cons; [exact R1|]. apply rds_warn. eapply rds_cons; [apply rd_chr; reflexivity|].
    eapply rds_cons; [eapply rd_lab, rd_star, R|]. eapply rds_cons; [eapply rd_lab, G|]. eapply rds_cons; [apply close_reads; reflexivity|apply rds_nil].
  - intros u. change (act_plugin_section zero_pos (VPType t) (VList (map (fun x => bop_val (re_bop x)) (ps_bops x))) v = RVal (VSection (re_section x []))).
    unfold act_plugin_section, re_section. cbn [iface_slice]. rewrite as_bops by (eapply Forall_impl; [|exact H]; now intros a [A _]). now rewrite S1, Et.
Qed.
