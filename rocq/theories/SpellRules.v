(** Every text that is read is the spelling of the tree it gives. *)
From Coq Require Import List NArith ZArith Bool String Arith Lia.
From Verif Require Import Bytes Utf8 F64 Ast Peg Actions Engine Parser GrammarGen AstPrint EscapeFacts QuoteFacts PosFacts Run EngineFacts
  Matches ParseFacts Termination PegSem PegFacts Det Reads ReadGap LexFacts Tree Sound Rules SoundLex SoundRules Spelled HidFacts GapComments.
Import ListNotations.
Notation gap_e := Rules.gap_e.

(** A text that starts like a selector is read as one. *)
Lemma selector_starts ign p : peg ign gen_grammar selector_e [] p PFail -> ~ selector_start (pt_rest p).
Proof.
  intros H (x & u & E & N & F). assert (K : peg ign gen_grammar selel_e [] p PFail).
  { inversion H; subst; try discriminate. match goal with A : peg _ _ (ELab _ _) _ _ _ |- _ => inversion A; subst end.
    match goal with A : peg _ _ (EPlus _) _ _ PFail |- _ => inversion A; subst end. match goal with A : pegt _ _ _ _ _ |- _ => inversion A; subst end. assumption. }
  destruct (selel_reads (ign := ign) (SelEl zero_pos x) u) as (en' & t & E2 & R).
  { split; [exact N|]. exact F. }
  rewrite rules_are_generated in K. destruct (reads_peg ign rules _ _ _ _ _ R p) as (v0 & en1 & q & D & _). { rewrite E. cbn [selel_string se_name] in E2. rewrite <- E2. unfold selel_string. cbn [se_name]. now rewrite <- !app_assoc. }
  discriminate (peg_fun _ _ _ _ _ _ _ D K).
Qed.

(** ** Expressions without hidden gaps *)
Fixpoint nohid (e : expr) : bool :=
  match e with
  | EAct AStr _ | ERef _ => false
  | EAct _ e | ELab _ e | ENot e | EPlus e | EStar e | EOpt e => nohid e
  | EChoice l | ESeq l => forallb nohid l
  | _ => true
  end.
Lemma nohid_all ign g data T :
  (forall e en p v en' q hs, okh ign g data T e en p v en' q hs -> nohid e = true -> hs = []) /\
  (forall es en p v en' q hs, okhs ign g data T es en p v en' q hs -> forallb nohid es = true -> hs = []) /\
  (forall e p l q hs, okht ign g data T e p l q hs -> nohid e = true -> hs = []).
Proof.
  apply okh_mutind; intros; try reflexivity; cbn [nohid forallb] in *;
    try match goal with H : _ && _ = true |- _ => apply andb_true_iff in H as [? ?] end;
    try discriminate; auto.
  - destruct a; cbn in *; auto; discriminate.
  - rewrite H0, H2 by assumption. reflexivity.
  - rewrite H0, H2 by assumption. reflexivity.
Qed.

Section Spell.
  Variable ign : bool.
  Variable data : bytes.
  Notation g := gen_grammar.
  Notation off p := (p_off (pt_pos p)).
  Notation gap_stop := (GapComments.gap_stop ign).

  Definition S (p : point) (l : list piece) (q : point) (hs : list hid) : Prop :=
    Steps p q /\ spelled ign data (off p) l (seg p q) hs.
  Lemma S_nil p : S p [] p [].
  Proof. split; [constructor|]. rewrite seg_refl. constructor. Qed.
  Lemma S_cat p l q h m r k : S p l q h -> S q m r k -> S p (l ++ m) r (h ++ k).
  Proof.
    intros [S1 H1] [S2 H2]. split; [eapply steps_trans; eauto|]. rewrite (seg_app p q r) by assumption.
    apply spelled_app; [exact H1|]. now rewrite seg_len.
  Qed.
  Lemma S_eq p l l' q h h' : S p l q h -> l = l' -> h = h' -> S p l' q h'.
  Proof. now intros H -> ->. Qed.
  Lemma S_tok p q t : Steps p q -> seg p q = t -> S p [PTok t] q [].
  Proof. intros A <-. split; [exact A|]. rewrite <- (app_nil_r (seg p q)) at 2. constructor. constructor. Qed.
  Lemma S_num p q v : Steps p q -> number_text (seg p q) -> parse_float (seg p q) = Some v -> S p [PNum v] q [].
  Proof. intros A B C. split; [exact A|]. rewrite <- (app_nil_r (seg p q)). constructor; auto. constructor. Qed.
  Lemma S_ws p q : Steps p q -> seg p q <> [] -> Forall ws_char (seg p q) -> S p [PWs] q [].
  Proof. intros A B C. split; [exact A|]. rewrite <- (app_nil_r (seg p q)). constructor; auto. constructor. Qed.
  Lemma rest_after p q : Reach data p -> Steps p q -> skipn (off p + List.length (seg p q)) data = pt_rest q.
  Proof. intros R A. rewrite seg_len by exact A. symmetry. apply reach_rest. eapply steps_reach; eauto. Qed.
  Lemma S_gap p q k c : Reach data p -> Steps p q -> gap_run (seg p q) (pt_rest q) -> c = (if ign then [] else gap_block k (seg p q)) -> S p [PGap k c] q [].
  Proof. intros R A B C. split; [exact A|]. rewrite <- (app_nil_r (seg p q)). constructor; [now rewrite rest_after|exact C|constructor]. Qed.
  Lemma S_hid p q : Reach data p -> Steps p q -> gap_run (seg p q) (pt_rest q) -> S p [PHid] q [(pt_pos p, seg p q)].
  Proof. intros R A B. split; [exact A|]. rewrite <- (app_nil_r (seg p q)) at 1. constructor; [now rewrite rest_after|now apply reach_true_pos|reflexivity|constructor]. Qed.
  Lemma S_head p c l q hs : S p (PGap Next c :: l) q hs -> S p (PGap Head (map_first clear_before c) :: l) q hs.
  Proof.
    intros [A B]. split; [exact A|]. inversion B; subst. constructor; [assumption| |assumption].
    rewrite clear_before_first. destruct ign; [reflexivity|]. cbn [gap_block]. apply first_twice.
  Qed.
  Lemma S_none p l q hs m : S p l q hs -> S p (PLost m :: l) q hs.
  Proof. intros [A B]. split; [exact A|]. now constructor. Qed.
  Lemma S_nosel p l q hs : Reach data p -> ~ selector_start (pt_rest p) -> S p l q hs -> S p (PNosel :: l) q hs.
  Proof. intros R N [A B]. split; [exact A|]. constructor; [now rewrite <- reach_rest|exact B]. Qed.
  Lemma S_lost p c x l q hs : wf_plugin x -> S p (PGap Plain c :: pc_plugin x ++ l) q hs -> S p (PLost false :: l) q hs.
  Proof. intros W [A B]. split; [exact A|]. eapply sp_lost; [exact W|exact B]. Qed.
  Lemma S_lost_more p c x d l q hs : wf_plugin x -> S p (PGap Plain c :: pc_plugin x ++ [PHid; tok ","] ++ PGap Next d :: l) q hs -> S p (PLost true :: PGap Plain d :: l) q hs.
  Proof. intros W [A B]. split; [exact A|]. eapply sp_lost_more; [exact W|exact B]. Qed.

  (** ** Invariants of the rules *)
  Definition sec_body (s : section) : list piece :=
    [PTok (ptype_string (ps_type s)); PHid; tok "{"] ++ flat_map pc_bop (ps_bops s) ++ [PGap Plain (ps_foot s); tok "}"].
  Definition t_config (p : point) (v : val) (q : point) (hs : list hid) : Prop :=
    exists c ss, v = VConfig c /\ Forall (fun s => ps_type s <> PTUndef) ss /\ S p (pc_config ss (cf_foot c)) q hs /\ ss <> [] /\
      cf_input c = of_type PTInput ss /\ cf_filter c = of_type PTFilter ss /\ cf_output c = of_type PTOutput ss.
  Definition t_section (p : point) (v : val) (q : point) (hs : list hid) : Prop :=
    exists s, v = VSection s /\ ps_type s <> PTUndef /\ S p (sec_body s) q hs.
  Definition t_plugin (p : point) (v : val) (q : point) (hs : list hid) : Prop :=
    exists x q0, v = VPlugin x /\ wf_plugin x /\ S p [PGap Plain (match x with Plugin _ _ _ c _ => c end)] q0 [] /\ S q0 (pc_plugin x) q hs /\ (gap_stop p -> q0 = p).
  Definition branch_body (i : ifblock) (es : list ifblock) (e : elseblock) : list piece :=
    pc_if i ++ flat_map (fun x => [PGap Plain (match x with IfB _ _ _ c _ => c end); tok "else"; PHid] ++ pc_if x) es ++ pc_else e.
  Definition t_branch (p : point) (v : val) (q : point) (hs : list hid) : Prop :=
    exists i es e q0, v = VBranch i es e /\ S p [PGap Plain (match i with IfB _ _ _ c _ => c end)] q0 [] /\ S q0 (branch_body i es e) q hs /\ (gap_stop p -> q0 = p).
  Definition t_bop p v q hs : Prop := t_branch p v q hs \/ t_plugin p v q hs.
  Definition t_attribute (p : point) (v : val) (q : point) (hs : list hid) : Prop :=
    exists a, v = VAttr a /\ a <> AtNil /\ S p (PTok (attr_name a) :: arrow ++ pc_value a) q hs.
  Definition t_elem (p : point) (v : val) (q : point) (hs : list hid) : Prop :=
    exists a, v = VAttr a /\ a <> AtNil /\ S p (pc_value a) q hs.
  Definition t_value p v q hs : Prop := t_elem p v q hs \/ t_plugin p v q hs.
  Definition t_array (p : point) (v : val) (q : point) (hs : list hid) : Prop :=
    exists l f, v = VAttr (AtArr zero_pos [] l [] f) /\ S p (pc_value (AtArr zero_pos [] l [] f)) q hs.
  Definition t_hentries (p : point) (v : val) (q : point) (hs : list hid) : Prop :=
    exists l, v = VHEntries l /\ S p (join Head [PWs] pc_hentry l) q hs.
  Definition t_hentry (p : point) (v : val) (q : point) (hs : list hid) : Prop :=
    exists e, v = VHEntry e /\ S p (pc_hentry Next e) q hs.
  Definition t_if (p : point) (v : val) (q : point) (hs : list hid) : Prop := exists x, v = VIf x /\ S p (pc_if x) q hs.
  Definition t_elseif (p : point) (v : val) (q : point) (hs : list hid) : Prop := exists x, v = VElseIf x /\ S p ([tok "else"; PHid] ++ pc_if x) q hs.
  Definition t_else (p : point) (v : val) (q : point) (hs : list hid) : Prop :=
    exists l f, v = VElse (ElB (pt_pos p) l [] f) /\ S p ([tok "else"; PHid; tok "{"] ++ flat_map pc_bop l ++ [PGap Plain f; tok "}"]) q hs.
  Definition t_cond (p : point) (v : val) (q : point) (hs : list hid) : Prop := exists c, v = VCond c /\ S p (pc_cond c) q hs.
  Definition t_expr (p : point) (v : val) (q : point) (hs : list hid) : Prop :=
    exists e, v = VExpr e /\ e <> ExNil /\ bo_of e = no_op /\ S p (pc_body e) q hs.
  Definition t_rvalue (p : point) (v : val) (q : point) (hs : list hid) : Prop :=
    exists r, as_rvalue v = Some r /\ S p (pc_rvalue r) q hs.

  Definition invs : list (string * (point -> val -> point -> list hid -> Prop)) :=
    [("config", t_config); ("pluginSection", t_section); ("branchOrPlugin", t_bop); ("plugin", t_plugin);
     ("attribute", t_attribute); ("value", t_value); ("array", t_array); ("hash", t_elem); ("hashentries", t_hentries);
     ("hashentry", t_hentry); ("branch", t_branch); ("ifCond", t_if); ("elseIf", t_elseif); ("elseCond", t_else);
     ("condition", t_cond); ("expression", t_expr); ("negativeExpression", t_expr); ("inExpression", t_expr);
     ("notInExpression", t_expr); ("rvalue", t_rvalue); ("compareExpression", t_expr); ("regexpExpression", t_expr)]%string.
  Fixpoint find_inv (n : string) (l : list (string * (point -> val -> point -> list hid -> Prop))) : point -> val -> point -> list hid -> Prop :=
    match l with [] => fun _ _ _ _ => True | (k, t) :: l' => if String.eqb k n then t else find_inv n l' end.
  Definition T (n : string) : point -> val -> point -> list hid -> Prop := find_inv n invs.

  Notation okh := (HidFacts.okh ign g data T).
  Notation okht := (HidFacts.okht ign g data T).
  Notation T0 := (fun (_ : string) (_ : point) (_ : val) (_ : point) => True).
  Notation ok0 := (Sound.ok ign g data T0).

  Lemma nohs e en p v en' q hs : okh e en p v en' q hs -> nohid e = true -> hs = [].
  Proof. apply nohid_all. Qed.
  Lemma act_ok a e en p v en' q hs : okh (EAct a e) en p v en' q hs -> lits_ok (EAct a e) = true -> exists en2, ok0 (EAct a e) en p v en2 q.
  Proof.
    intros H L. apply hi_act in H as (v0 & h0 & _ & (en2 & P) & _ & R & _). exists en2. eapply peg_ok; eauto.
  Qed.

  (** ** Lexical rules *)
  Definition GV (p : point) (v : val) (q : point) : Prop := forall k, S p [PGap k (gap_com k v)] q [].
  Definition is_gap (p : point) (v : val) (q : point) : Prop :=
    GV p v q /\ gap_stop q /\ (gap_stop p -> q = p).
  Lemma h_gap en p v en' q hs : okh gap_e en p v en' q hs -> en' = en /\ hs = [] /\ is_gap p v q.
  Proof.
    intros H. pose proof (nohs _ _ _ _ _ _ _ H eq_refl) as ->. apply hi_star in H as (-> & l & -> & _ & R & en2 & P). split; [reflexivity|]. split; [reflexivity|].
    apply peg_gap in P as (A & B & C & D & E). split; [|split; assumption]. intros k. now apply S_gap.
  Qed.
  Lemma h_gaps en p v en' q hs : okh gaps_e en p v en' q hs -> en' = en /\ S p [PHid] q hs /\ gap_stop q.
  Proof.
    intros H. apply hi_act in H as (v0 & h0 & H & (en2 & P) & _ & R & _ & _ & ->). apply hi_star in H as (-> & _). split; [reflexivity|].
    apply pi_act in P as (v1 & P & _). apply peg_gap in P as (A & B & C & _). split; [now apply S_hid|exact C].
  Qed.
  Lemma h_ws en p v en' q hs : okh ws_e en p v en' q hs -> en' = en /\ S p [PWs] q hs.
  Proof.
    intros H. pose proof (nohs _ _ _ _ _ _ _ H eq_refl) as ->. apply hi_act in H as (v0 & h0 & H & _ & M & R & St & _). inversion H; subst. split; [reflexivity|].
    apply mi_plus in M as (ts & Nl & F & E). apply S_ws; [exact St| |]; rewrite E.
    - destruct F as [|t ts M F]; [congruence|]. apply ws_class_match in M as (c & -> & _). discriminate.
    - apply Forall_concat. eapply Forall_impl; [|exact F]. cbn. intros t M. apply ws_class_match in M as (c & -> & C). constructor; [exact C|constructor].
  Qed.
  Lemma h_lit s en p v en' q hs : okh (lit s) en p v en' q hs -> Forall (fun x => x < 128)%N (b s) -> en' = en /\ S p [tok s] q hs.
  Proof.
    intros H F. apply hi_lit in H as (-> & St & H & ->). split; [reflexivity|]. apply lit_ascii in H; [|exact F]. now apply S_tok.
  Qed.
  Lemma h_close s c en p v en' q hs : okh (close s (EAndCode c)) en p v en' q hs -> c <> PInitParser -> Forall (fun x => x < 128)%N (b s) -> en' = en /\ S p [tok s] q hs.
  Proof.
    intros H N F. apply hi_choice in H as [(-> & en1 & H)|H]; [apply h_lit in H; tauto|].
    apply hi_choice in H as [(_ & en1 & H)|H]; [now apply hi_and in H as (X & _)|now apply hi_choice0 in H].
  Qed.
  Lemma h_string en p v en' q hs : okh string_e en p v en' q hs -> exists s, v = VAttr (AtStr s) /\ S p [PTok (sa_value_string s)] q hs.
  Proof.
    intros H. pose proof (nohs _ _ _ _ _ _ _ H eq_refl) as ->. pose proof (okh_steps _ _ _ _ _ _ _ _ _ _ _ H) as St.
    apply act_ok in H as (en2 & H); [|reflexivity]. apply ok_string in H as (s & -> & _ & _ & E). exists s. split; [reflexivity|]. now apply S_tok.
  Qed.
  Lemma h_bareword en p v en' q hs : okh bareword_e en p v en' q hs -> exists s, v = VAttr (AtStr s) /\ S p [PTok (sa_value_string s)] q hs.
  Proof.
    intros H. pose proof (nohs _ _ _ _ _ _ _ H eq_refl) as ->. pose proof (okh_steps _ _ _ _ _ _ _ _ _ _ _ H) as St.
    apply act_ok in H as (en2 & H); [|reflexivity]. apply ok_bareword in H as (s & -> & _ & _ & _ & _ & E). exists s. split; [reflexivity|]. now apply S_tok.
  Qed.
  Lemma h_number en p v en' q hs : okh number_e en p v en' q hs -> exists n, v = VAttr (AtNum n) /\ S p [PNum (na_val n)] q hs.
  Proof.
    intros H. pose proof (nohs _ _ _ _ _ _ _ H eq_refl) as ->. apply hi_act in H as (v0 & h0 & _ & _ & M & _ & St & E & _). cbn in E. unfold act_number in E.
    destruct (parse_float _) as [f|] eqn:F; [|discriminate]. inversion E; subst. eexists. split; [reflexivity|]. apply S_num; [exact St|exact (number_matches _ _ M)|exact F].
  Qed.
  Lemma h_regexp en p v en' q hs : okh regexp_e en p v en' q hs -> exists r, v = VRe r /\ S p [PTok (regexp_string r)] q hs.
  Proof.
    intros H. pose proof (nohs _ _ _ _ _ _ _ H eq_refl) as ->. pose proof (okh_steps _ _ _ _ _ _ _ _ _ _ _ H) as St.
    apply act_ok in H as (en2 & H); [|reflexivity]. apply ok_regexp in H as (s & -> & _ & _ & E). exists s. split; [reflexivity|]. now apply S_tok.
  Qed.
  Lemma h_name en p v en' q hs : okh name_e en p v en' q hs -> en' = en /\ exists s, v = VAttr (AtStr s) /\ S p [PTok (sa_value_string s)] q hs.
  Proof.
    intros H. pose proof (nohs _ _ _ _ _ _ _ H eq_refl) as ->. pose proof (okh_steps _ _ _ _ _ _ _ _ _ _ _ H) as St.
    pose proof (okh_choice_env _ _ _ _ _ _ _ _ _ _ _ H) as ->. split; [reflexivity|].
    assert (K : is_name p v q).
    { apply hi_choice in H as [(_ & en1 & H)|H]; [apply act_ok in H as (en2 & H); [|reflexivity]; now apply ok_name1 in H|].
      apply hi_choice in H as [(_ & en1 & H)|H]; [|now apply hi_choice0 in H]. apply act_ok in H as (en2 & H); [|reflexivity]. now apply ok_name2 in H. }
    destruct K as (s & -> & _ & E & _). exists s. split; [reflexivity|]. now apply S_tok.
  Qed.
  Lemma selels_text p l q : Sound.okt ign g data T0 selel_e p l q ->
    exists els, all_some (fun v => match v with VSelEl s => Some s | _ => None end) l = Some els /\ seg p q = List.concat (map selel_string els).
  Proof.
    revert p. induction l as [|v l IH]; intros p H.
    - inversion H; subst. exists []. split; [reflexivity|apply seg_refl].
    - inversion H; subst. match goal with A : Sound.ok _ _ _ _ selel_e _ _ _ _ ?q1 |- _ => rename A into K; assert (S0 := ok_steps _ _ _ _ _ _ _ _ _ _ K) end.
      match goal with A : Sound.okt _ _ _ _ _ ?q1 l _ |- _ => destruct (IH _ A) as (els & E1 & E2); pose proof (proj2 (proj2 (ok_steps_all _ _ _ _)) _ _ _ _ A) as S1 end.
      apply oi_act in K as (v0 & _ & _ & M & _ & _ & E). apply selel_matches in M as (x & Sx & Nx & Fx). cbn in E. unfold act_selector_element in E.
      rewrite Sx in E. assert (I : inner ([91%N] ++ x ++ [93%N]) = Some x).
      { cbn [app inner]. destruct (x ++ [93%N]) as [|c y] eqn:Z; [now destruct x|]. rewrite <- Z. now rewrite removelast_last. }
      rewrite I in E. inversion E; subst. exists (SelEl (pt_pos p) x :: els). cbn [all_some]. rewrite E1. split; [reflexivity|].
      cbn [map List.concat]. rewrite (seg_app _ _ _ S0 S1), Sx, E2. reflexivity.
  Qed.
  Lemma h_selector en p v en' q hs : okh selector_e en p v en' q hs -> exists s, v = VSel s /\ S p (pc_sel s) q hs.
  Proof.
    intros H. pose proof (nohs _ _ _ _ _ _ _ H eq_refl) as ->. pose proof (okh_steps _ _ _ _ _ _ _ _ _ _ _ H) as St.
    apply act_ok in H as (en2 & H); [|reflexivity]. apply oi_act in H as (v0 & H & _ & _ & R & _ & E). apply oi_lab in H as (-> & en1 & H). apply oi_plus in H as (_ & x & l & -> & H).
    apply selels_text in H as (els & E1 & E2). cbn [run_action lookup bind] in E. cbn [String.eqb] in E. unfold act_selector in E.
    cbn [lookup String.eqb Ascii.eqb Bool.eqb iface_slice] in E. rewrite E1 in E. inversion E; subst. eexists. split; [reflexivity|]. now apply S_tok.
  Qed.

  (** ** Tactics *)
  Lemma r_step p q : Reach data p -> Steps p q -> Reach data q. Proof. apply steps_reach. Qed.
  Lemma S_reach p l q hs : Reach data p -> S p l q hs -> Reach data q.
  Proof. intros R [A _]. eapply steps_reach; eauto. Qed.
  Ltac asc := repeat constructor.
  Ltac hone H :=
    match type of H with
    | HidFacts.okh _ _ _ _ (ESeq []) _ _ _ _ _ _ => apply hi_seq0 in H as (-> & -> & ->)
    | HidFacts.okh _ _ _ _ (ESeq (_ :: _)) _ _ _ _ _ _ =>
        let K := fresh "K" in apply hi_seq in H as (? & ? & ? & ? & ? & ? & K & H & ->); hone K; hone H
    | HidFacts.okh _ _ _ _ (ELab _ _) _ _ _ _ _ _ => apply hi_lab in H as (-> & ? & H); hone H
    | HidFacts.okh _ _ _ _ (EStateCode _) _ _ _ _ _ _ => apply hi_state in H as (-> & -> & ->)
    | HidFacts.okh _ _ _ _ warn_e _ _ _ _ _ _ => apply hi_state in H as (-> & -> & ->)
    | HidFacts.okh _ _ _ _ gaps_e _ _ _ _ _ _ => let Z := fresh "GS" in apply h_gaps in H as (-> & H & Z)
    | HidFacts.okh _ _ _ _ gap_e _ _ _ _ _ _ => let Z := fresh "GS" in let G := fresh "G0" in apply h_gap in H as (-> & -> & H & Z & G)
    | HidFacts.okh _ _ _ _ ws_e _ _ _ _ _ _ => apply h_ws in H as (-> & H)
    | HidFacts.okh _ _ _ _ in_op_e _ _ _ _ _ _ => apply h_close in H as (-> & H); [|discriminate|asc]
    | HidFacts.okh _ _ _ _ (ENot _) _ _ _ _ _ _ => apply hi_not in H as (-> & -> & ->)
    | HidFacts.okh _ _ _ _ eof_e _ _ _ _ _ _ => apply hi_not in H as (-> & -> & ->)
    | HidFacts.okh _ _ _ _ (lit _) _ _ _ _ _ _ => apply h_lit in H as (-> & H); [|asc]
    | HidFacts.okh _ _ _ _ (ERef _) _ _ _ _ _ _ => let St := fresh "St" in apply hi_ref in H as (-> & St & ? & H);
        cbv [T invs find_inv String.eqb Ascii.eqb Bool.eqb] in H
    | HidFacts.okh _ _ _ _ (close _ _) _ _ _ _ _ _ => apply h_close in H as (-> & H); [|discriminate|asc]
    | HidFacts.okh _ _ _ _ name_e _ _ _ _ _ _ => apply h_name in H as (-> & ? & -> & H)
    | HidFacts.okh _ _ _ _ string_e _ _ _ _ _ _ => apply h_string in H as (? & -> & H)
    | HidFacts.okh _ _ _ _ selector_e _ _ _ _ _ _ => apply h_selector in H as (? & -> & H)
    | HidFacts.okh _ _ _ _ (EOpt _) _ _ _ _ _ _ => let St := fresh "St" in pose proof (okh_steps _ _ _ _ _ _ _ _ _ _ _ H) as St; apply hi_opt in H as (-> & H)
    | HidFacts.okh _ _ _ _ (EStar _) _ _ _ _ _ _ => let St := fresh "St" in pose proof (okh_steps _ _ _ _ _ _ _ _ _ _ _ H) as St; apply hi_star in H as (-> & ? & -> & H & ? & _)
    | HidFacts.okh _ _ _ _ (EChoice _) _ _ _ _ _ _ => let St := fresh "St" in pose proof (okh_steps _ _ _ _ _ _ _ _ _ _ _ H) as St; pose proof (okh_choice_env _ _ _ _ _ _ _ _ _ _ _ H) as ->
    | _ => idtac
    end.
  Ltac act H E := let R := fresh "R" in let M := fresh "M" in
    apply hi_act in H as (? & ? & H & _ & M & R & _ & E & ->); cbv iota.
  Ltac ev E := cbn [run_action lookup bind String.eqb Ascii.eqb Bool.eqb] in E.
  Ltac reach1 := match goal with
    | H : Steps ?p ?q |- Reach data ?q => apply (r_step p q); [|exact H]
    | H : S ?p _ ?q _ |- Reach data ?q => apply (S_reach p _ q _) with (2 := H)
    | H : GV ?p _ ?q |- Reach data ?q => apply (S_reach p _ q _) with (2 := H Plain)
    end.
  Ltac reach := repeat first [assumption | reach1].
  Ltac chain1 := match goal with
    | H : S ?p _ _ _ |- S ?p _ _ _ => eapply S_cat; [exact H|clear H]
    | H : GV ?p _ _ |- S ?p _ _ _ => eapply S_cat; [eapply H|clear H]
    end.
  Ltac chain := repeat chain1; apply S_nil.
  Ltac norm := cbn [app]; repeat rewrite ?app_nil_r, <- ?app_assoc, ?flat_map_app; cbn [app]; try reflexivity; try solve [repeat first [reflexivity | apply f_equal2]].
  Ltac spell := eapply S_eq; [chain|norm|norm].

  Lemma okht_S {X} (f : val -> option X) (P : X -> Prop) (it : X -> list piece) e :
    (forall p v en' q hs, okh e [] p v en' q hs -> Reach data p -> exists x, f v = Some x /\ P x /\ S p (it x) q hs) ->
    forall l p q hs, okht e p l q hs -> Reach data p -> exists xs, all_some f l = Some xs /\ Forall P xs /\ S p (flat_map it xs) q hs.
  Proof.
    intros H. induction l as [|v l IH]; intros p q hs K R; inversion K; subst.
    - exists []. split; [reflexivity|]. split; [constructor|apply S_nil].
    - match goal with A : HidFacts.okh _ _ _ _ e _ p _ _ ?q1 _, B : HidFacts.okht _ _ _ _ _ _ l _ _ |- _ =>
        destruct (H _ _ _ _ _ A R) as (x & E1 & E2 & E3); destruct (IH _ _ _ B) as (xs & F1 & F2 & F3);
        [eapply steps_reach; [exact R|exact (okh_steps _ _ _ _ _ _ _ _ _ _ _ A)]|] end.
      exists (x :: xs). cbn [all_some flat_map]. rewrite E1, F1. split; [reflexivity|]. split; [now constructor|]. eapply S_cat; eauto.
  Qed.
  Lemma join_cons {A} k sep (f : place -> A -> list piece) x l : join k sep f (x :: l) = f k x ++ flat_map (fun y => sep ++ f Next y) l.
  Proof. revert k x. induction l as [|y l IH]; intros k x; [reflexivity|]. change (join k sep f (x :: y :: l)) with (f k x ++ sep ++ join Next sep f (y :: l)). rewrite IH. cbn [flat_map]. now rewrite <- !app_assoc. Qed.

  (** ** Values *)
  Lemma r_value p v en q hs : okh value_e [] p v en q hs -> Reach data p -> t_value p v q hs.
  Proof.
    intros H R. apply hi_choice in H as [(_ & en1 & H)|H]; [hone H; now right|]. left.
    apply hi_choice in H as [(_ & en1 & H)|H].
    { apply h_bareword in H as (s & -> & H). exists (AtStr s). repeat split; try discriminate; apply H. }
    apply hi_choice in H as [(_ & en1 & H)|H].
    { apply h_string in H as (s & -> & H). exists (AtStr s). repeat split; try discriminate; apply H. }
    apply hi_choice in H as [(_ & en1 & H)|H].
    { apply h_number in H as (s & -> & H). exists (AtNum s). repeat split; try discriminate; apply H. }
    apply hi_choice in H as [(_ & en1 & H)|H].
    { hone H. destruct H as (l & f & -> & H). eexists. split; [reflexivity|]. split; [discriminate|exact H]. }
    apply hi_choice in H as [(_ & en1 & H)|H].
    { hone H. exact H. }
    apply hi_choice in H as [(_ & en1 & H)|H]; [|now apply hi_choice0 in H]. apply hi_and in H as (X & _). discriminate X.
  Qed.
  Lemma set_com_name a c : attr_name (set_attr_com a c) = attr_name a. Proof. destruct a; reflexivity. Qed.
  Lemma set_com_value a c : pc_value (set_attr_com a c) = pc_value a. Proof. destruct a; reflexivity. Qed.
  Lemma set_com_com a c : a <> AtNil -> attr_com (set_attr_com a c) = c. Proof. destruct a; try reflexivity. congruence. Qed.
  Lemma r_more_attr p v en q hs : okh more_attr_e [] p v en q hs -> Reach data p -> exists a, v_attr v = Some a /\ True /\ S p ([PWs] ++ pc_attr Next a) q hs.
  Proof.
    intros H R0. act H E. hone H. ev E.
    match goal with N : t_attribute _ _ _ _ |- _ => destruct N as (a & -> & W & La) end.
    cbn [act_attribute_comment] in E. inversion E; subst. eexists. split; [reflexivity|]. split; [exact I|].
    unfold pc_attr. rewrite set_com_name, set_com_value, set_com_com by exact W. spell.
  Qed.
  Lemma r_attrs p v en q hs : okh attrs_e [] p v en q hs -> Reach data p -> exists l, v = VAttrs l /\ S p (join Plain [PWs] pc_attr l) q hs.
  Proof.
    intros H R0. act H E. hone H. ev E.
    match goal with N : t_attribute _ _ _ _ |- _ => destruct N as (a & -> & W & La) end.
    match goal with N : HidFacts.okht _ _ _ _ _ _ _ _ _ |- _ => eapply (okht_S v_attr (fun _ => True)) in N as (xs & E1 & _ & E3); [|exact r_more_attr|reach] end.
    unfold act_attributes in E; cbn [act_attribute_comment] in E; cbn [iface_slice app attributes_loop] in E; rewrite (attributes_some _ _ E1) in E; inversion E; subst.
    eexists. split; [reflexivity|]. rewrite join_cons. unfold pc_attr at 1. rewrite set_com_name, set_com_value, set_com_com by exact W. spell.
  Qed.
  Lemma opt_S {A} (mk : list A -> val) (it : list A -> list piece) e p v q hs :
    (forall p v en q hs, okh e [] p v en q hs -> Reach data p -> exists l, v = mk l /\ S p (it l) q hs) -> (forall p, S p (it []) p []) -> Reach data p ->
    (exists en, okh e [] p v en q hs) \/ (v = VNil /\ q = p /\ hs = []) ->
    exists l, (v = mk l \/ v = VNil /\ l = []) /\ S p (it l) q hs.
  Proof.
    intros H Z R [(en & K)|(-> & -> & ->)].
    - destruct (H _ _ _ _ _ K R) as (l & -> & A1). exists l. auto.
    - exists []. auto.
  Qed.
  Lemma wf_read p v en q : peg ign g plugin_e [] p (POk v en q) -> Reach data p -> exists x, v = VPlugin x /\ wf_plugin x.
  Proof.
    intros H R. assert (K : Sound.ok ign g data (SoundRules.T ign data) plugin_e [] p v en q) by (eapply peg_ok; eauto using rules_inv; exact gen_lits_ok).
    apply (rules_inv ign data "plugin") in K; [|reflexivity|exact R]. destruct K as (x & -> & W & _). eauto.
  Qed.
  Lemma r_plugin p v en q hs : okh plugin_e [] p v en q hs -> Reach data p -> (exists en2, peg ign g plugin_e [] p (POk v en2 q)) -> t_plugin p v q hs.
  Proof.
    intros H R0 (en2 & P). apply wf_read in P as (x0 & -> & W0); [|exact R0]. act H E. hone H. ev E. unfold act_plugin in E.
    match goal with A : _ \/ _ |- _ => apply (opt_S _ (join Plain [PWs] pc_attr) _ _ _ _ _ r_attrs) in A as (l & El & Ll); [|intros; apply S_nil|reach] end.
    match type of E with context [match ?m with Some _ => _ | None => _ end] => replace m with (Some l) in E by (destruct El as [-> |[-> ->]]; reflexivity) end.
    inversion E; subst. eexists _, _. split; [reflexivity|]. split; [exact W0|]. split; [match goal with A : GV p _ _ |- _ => apply A end|].
    split; [|assumption]. change (pc_plugin ?x) with (match x with Plugin _ n l _ f => [PTok n; PHid; tok "{"] ++ join Plain [PWs] pc_attr l ++ [PGap Plain f; tok "}"] end). spell.
  Qed.
  Lemma plugin_here p v q hs : t_plugin p v q hs -> gap_stop p -> exists x, v = VPlugin x /\ wf_plugin x /\ S p (pc_plugin x) q hs.
  Proof. intros (x & q0 & -> & W & _ & H & Z) G. rewrite (Z G) in H. eauto. Qed.
  Lemma r_attribute p v en q hs : okh attribute_e [] p v en q hs -> Reach data p -> t_attribute p v q hs.
  Proof.
    intros H R0. act H E. hone H. ev E. unfold act_attribute in E. cbv iota in E.
    match goal with N : t_value _ _ _ _ |- _ => destruct N as [(a & -> & W & La)|N]; [|apply plugin_here in N as (x' & -> & Wx & La); [|assumption]] end.
    - destruct a as [|s'|n|p' n l c f|p' n l c f|p' n v' c]; try discriminate E; try congruence; inversion E; subst; eexists; (split; [reflexivity|]); (split; [discriminate|]); unfold arrow; spell.
    - inversion E; subst. eexists. split; [reflexivity|]. split; [discriminate|]. unfold arrow. spell.
  Qed.
  Lemma r_more_value p v en q hs : okh more_value_e [] p v en q hs -> Reach data p -> exists a, v_attr v = Some a /\ True /\ S p ([PHid; tok ","] ++ pc_elem Next a) q hs.
  Proof.
    intros H R0. act H E. hone H. ev E.
    match goal with N : t_value _ _ _ _ |- _ => destruct N as [(a & -> & W & La)|(x' & q0 & -> & _)] end; cbn [act_attribute_comment] in E; [|discriminate E].
    inversion E; subst. eexists. split; [reflexivity|]. split; [exact I|].
    unfold pc_elem. rewrite set_com_value, set_com_com by exact W. spell.
  Qed.
  Definition pc_elems (l : list attr) : list piece := PLost (nonempty l) :: join Plain [PHid; tok ","] pc_elem l.
  Lemma r_values p v en q hs : okh values_e [] p v en q hs -> Reach data p -> exists l, v = VAttrs l /\ S p (pc_elems l) q hs.
  Proof.
    intros H R0. act H E. hone H. ev E.
    match goal with N : HidFacts.okht _ _ _ _ _ _ _ _ _ |- _ => eapply (okht_S v_attr (fun _ => True)) in N as (xs & E1 & _ & E3); [|exact r_more_value|reach] end.
    match goal with N : t_value _ _ _ _ |- _ => destruct N as [(a & -> & W & La)|N]; [|apply plugin_here in N as (x' & -> & Wx & La); [|assumption]] end;
    unfold act_attributes in E; cbn [act_attribute_comment] in E; cbn [iface_slice app attributes_loop] in E; rewrite (attributes_some _ _ E1) in E; inversion E; subst;
    eexists; (split; [reflexivity|]); unfold pc_elems.
    - apply S_none. rewrite join_cons. unfold pc_elem at 1. rewrite set_com_value, set_com_com by exact W. spell.
    - match goal with G : GV _ ?f _ |- _ => destruct xs as [|y ys]; [apply (S_lost _ (gap_com Plain f) x' _ _ _ Wx)|cbn [nonempty]; rewrite join_cons; unfold pc_elem at 1; cbn [app]; apply (S_lost_more _ (gap_com Plain f) x' _ _ _ _ Wx)] end; spell.
  Qed.
  Lemma r_array p v en q hs : okh array_e [] p v en q hs -> Reach data p -> t_array p v q hs.
  Proof.
    intros H R0. act H E. hone H. ev E. unfold act_array in E.
    match goal with A : _ \/ _ |- _ => apply (opt_S _ pc_elems _ _ _ _ _ r_values) in A as (l & El & Ll); [|intros; apply S_none, S_nil|reach] end.
    match goal with G : GV _ ?f _ |- _ =>
      assert (E2 : v = VAttr (AtArr zero_pos [] l [] (comment_block f false false))) by (destruct El as [-> |[-> ->]]; now inversion E) end.
    subst v. eexists _, _. split; [reflexivity|]. change (pc_value (AtArr zero_pos [] ?l [] ?f)) with ([tok "["] ++ pc_elems l ++ [PGap Plain f; tok "]"]). spell.
  Qed.
  Lemma r_hentry p v en q hs : okh hashentry_e [] p v en q hs -> Reach data p -> t_hentry p v q hs.
  Proof.
    intros H R0. act H E. hone H. ev E. unfold act_hashentry in E.
    match goal with N : t_value _ _ _ _ |- _ => destruct N as [(a & -> & W & La)|(x' & q0 & -> & _)] end.
    2: { match type of E with match ?m with _ => _ end = _ => destruct m; discriminate E end. }
    match goal with N : HidFacts.okh _ _ _ _ (EChoice _) _ ?p1 ?k _ ?p2 ?h |- _ =>
      assert (Z : exists ky, k = VAttr (match ky with HKStr s => AtStr s | HKNum n => AtNum n end) /\ S p1 (pc_key ky) p2 h) end.
    { match goal with N : HidFacts.okh _ _ _ _ (EChoice _) _ _ _ _ _ _ |- _ => rename N into HN; clear E;
        apply hi_choice in HN as [(_ & en1 & HN)|HN]; [|apply hi_choice in HN as [(_ & en1 & HN)|HN]; [|apply hi_choice in HN as [(_ & en1 & HN)|HN]; [|now apply hi_choice0 in HN]]] end.
      - apply h_number in HN as (n & -> & HN). now exists (HKNum n).
      - apply h_bareword in HN as (n & -> & HN). now exists (HKStr n).
      - apply h_string in HN as (n & -> & HN). now exists (HKStr n). }
    destruct Z as (ky & -> & Lk). match goal with G : GV p ?f _ |- _ => assert (E2 : v = VHEntry (HEntry (pt_pos p) ky a (comment_block f true false))) by (destruct ky; now inversion E) end.
    subst v. eexists. split; [reflexivity|]. cbn [pc_hentry]. unfold arrow. spell.
  Qed.
  Lemma r_more_hentry p v en q hs : okh more_hashentry_e [] p v en q hs -> Reach data p -> exists e, v_hentry v = Some e /\ True /\ S p ([PWs] ++ pc_hentry Next e) q hs.
  Proof.
    intros H R0. act H E. hone H. ev E. match goal with N : t_hentry _ _ _ _ |- _ => destruct N as (a & -> & La) end.
    inversion E; subst. exists a. split; [reflexivity|]. split; [exact I|spell].
  Qed.
  Lemma r_hentries p v en q hs : okh hashentries_e [] p v en q hs -> Reach data p -> t_hentries p v q hs.
  Proof.
    intros H R0. act H E. hone H. ev E. unfold act_hashentries in E. match goal with N : t_hentry _ _ _ _ |- _ => destruct N as ([p' k a c] & -> & La) end.
    match goal with N : HidFacts.okht _ _ _ _ _ _ _ _ _ |- _ => eapply (okht_S v_hentry (fun _ => True)) in N as (xs & E1 & _ & E3); [|exact r_more_hentry|reach] end.
    cbn [iface_slice] in E. rewrite (hentries_some _ _ E1) in E. inversion E; subst. eexists. split; [reflexivity|]. rewrite join_cons.
    cbn [pc_hentry app] in La |- *. apply S_head. spell.
  Qed.
  Lemma r_hash p v en q hs : okh hash_e [] p v en q hs -> Reach data p -> t_elem p v q hs.
  Proof.
    intros H R0. act H E. hone H. ev E. unfold act_hash in E.
    match goal with A : _ \/ _ |- _ => apply (opt_S VHEntries (join Head [PWs] pc_hentry)) in A as (l & El & Ll); [| |intros; apply S_nil|reach] end.
    2: { intros p0 v0 en0 q0 h0 A _. hone A. exact A. }
    match goal with G : GV _ ?f _ |- _ =>
      assert (E2 : v = VAttr (AtHash zero_pos [] l [] (comment_block f false false))) by (destruct El as [-> |[-> ->]]; now inversion E) end.
    subst v. eexists. split; [reflexivity|]. split; [discriminate|].
    change (pc_value (AtHash zero_pos [] ?l [] ?f)) with ([tok "{"] ++ join Head [PWs] pc_hentry l ++ [PGap Plain f; tok "}"]). spell.
  Qed.

  (** ** Conditions *)
  Lemma r_rvalue p v en q hs : okh rvalue_e [] p v en q hs -> Reach data p -> (exists en2, peg ign g rvalue_e [] p (POk v en2 q)) -> t_rvalue p v q hs.
  Proof.
    intros H R0 (en2 & P). apply hi_choice in H as [(_ & en1 & H)|H].
    { apply h_string in H as (s & -> & H). eexists. split; [reflexivity|exact H]. }
    apply hi_choice in H as [(_ & en1 & H)|H].
    { apply h_number in H as (s & -> & H). eexists. split; [reflexivity|exact H]. }
    apply hi_choice in H as [(_ & en1 & H)|H].
    { apply h_selector in H as (s & -> & H). eexists. split; [reflexivity|exact H]. }
    apply hi_choice in H as [(_ & en1 & H)|H].
    { hone H. destruct H as (l & f & -> & H). eexists. split; [reflexivity|]. apply S_nosel; [exact R0| |exact H]. apply (selector_starts ign).
      assert (K : forall e v0 en3 en2 q0, peg ign g e en2 p (POk v0 en3 q0) -> lits_ok e = true -> ok0 e en2 p v0 en3 q0) by (intros; eapply peg_ok; eauto; exact gen_lits_ok).
      apply pi_choice in P as [(_ & en3 & P)|[_ P]]; [apply K in P; [|reflexivity]; apply ok_string in P as (s & E & _); discriminate E|].
      apply pi_choice in P as [(_ & en3 & P)|[_ P]]; [apply K in P; [|reflexivity]; apply ok_number in P as (s & E & Z); revert E; clear; intros E; discriminate E|].
      apply pi_choice in P as [(_ & en3 & P)|[P _]]; [|exact P]. apply K in P; [|reflexivity]. apply ok_selector in P as (s & E & _). discriminate E. }
    apply hi_choice in H as [(_ & en1 & H)|H].
    { apply h_regexp in H as (s & -> & H). eexists. split; [reflexivity|exact H]. }
    apply hi_choice in H as [(_ & en1 & H)|H]; [|now apply hi_choice0 in H]. apply hi_and in H as (X & _). discriminate X.
  Qed.
  Ltac two := match goal with A : t_rvalue ?p _ _ _, B : t_rvalue ?p' _ _ _ |- _ => tryif constr_eq p p' then fail else
      (match goal with R : Reach data p, M : matches _ _ (seg p _) |- _ => idtac end; destruct A as (r1 & E1 & L1); destruct B as (r2 & E2 & L2)) end.
  Ltac exp := eexists; (split; [reflexivity|]); (split; [discriminate|]); (split; [reflexivity|]); cbn [pc_body]; spell.
  Lemma r_in p v en q hs : okh inExpression_e [] p v en q hs -> Reach data p -> t_expr p v q hs.
  Proof.
    intros H R0. act H E. hone H. ev E. unfold act_in in E. two.
    rewrite E1, E2 in E. inversion E; subst. exp.
  Qed.
  Lemma h_not_in en p v en' q hs : okh not_in_op_e en p v en' q hs -> en' = en /\ S p [tok "not "; PHid; tok "in"] q hs.
  Proof.
    intros H. split; [now apply okh_choice_env in H|]. apply hi_choice in H as [(_ & en1 & H)|H]; [hone H; spell|].
    apply hi_choice in H as [(_ & en1 & H)|H]; [now apply hi_and in H as (X & _)|now apply hi_choice0 in H].
  Qed.
  Lemma r_not_in p v en q hs : okh notInExpression_e [] p v en q hs -> Reach data p -> t_expr p v q hs.
  Proof.
    intros H R0. act H E. hone H. match goal with A : HidFacts.okh _ _ _ _ not_in_op_e _ _ _ _ _ _ |- _ => apply h_not_in in A as (-> & ?) end.
    ev E. unfold act_in in E. two.
    rewrite E1, E2 in E. inversion E; subst. exp.
  Qed.
  Lemma h_cmpop en p v en' q hs : okh cmpop_e en p v en' q hs -> exists o, v = VCmpOp o /\ S p [PTok (cmpop_string (co_op o))] q hs.
  Proof.
    intros H. pose proof (nohs _ _ _ _ _ _ _ H eq_refl) as ->. pose proof (okh_steps _ _ _ _ _ _ _ _ _ _ _ H) as St.
    apply hi_act in H as (? & ? & _ & _ & M & _ & _ & E & _). ev E. unfold act_compare_op in E. inversion E; subst. clear E. eexists. split; [reflexivity|]. cbn [co_op]. apply S_tok; [exact St|].
    apply mi_choice1 in M as [M|M]; [apply mi_lit in M; [rewrite M; now cbn|repeat constructor]|].
    apply mi_choice1 in M as [M|M]; [apply mi_lit in M; [rewrite M; now cbn|repeat constructor]|].
    apply mi_choice1 in M as [M|M]; [apply mi_lit in M; [rewrite M; now cbn|repeat constructor]|].
    apply mi_choice1 in M as [M|M]; [apply mi_lit in M; [rewrite M; now cbn|repeat constructor]|].
    apply mi_choice1 in M as [M|M]; [apply class_ascii in M as (c & -> & C); [|repeat constructor..]|].
    - unfold class_match in C. cbn [existsb] in C. rewrite xorb_false_r, !orb_false_r, orb_true_iff, !N.eqb_eq in C. destruct C as [->| ->]; now cbn.
    - apply mi_choice1 in M as [M|M]; [now apply mi_soft in M|now apply mi_choice0 in M].
  Qed.
  Lemma h_reop en p v en' q hs : okh reop_e en p v en' q hs -> exists o, v = VReOp o /\ S p [PTok (reop_string (ro_op o))] q hs.
  Proof.
    intros H. pose proof (nohs _ _ _ _ _ _ _ H eq_refl) as ->. pose proof (okh_steps _ _ _ _ _ _ _ _ _ _ _ H) as St.
    apply hi_act in H as (? & ? & _ & _ & M & _ & _ & E & _). ev E. unfold act_regexp_op in E. inversion E; subst. clear E. eexists. split; [reflexivity|]. cbn [ro_op]. apply S_tok; [exact St|].
    apply mi_choice1 in M as [M|M]; [apply mi_lit in M; [rewrite M; now cbn|repeat constructor]|].
    apply mi_choice1 in M as [M|M]; [apply mi_lit in M; [rewrite M; now cbn|repeat constructor]|].
    apply mi_choice1 in M as [M|M]; [now apply mi_soft in M|now apply mi_choice0 in M].
  Qed.
  Lemma h_boolop en p v en' q hs : okh boolop_e en p v en' q hs -> exists o, v = VBoolOp o /\ bo_op o <> BoNone /\ S p [PTok (boolop_word (bo_op o))] q hs.
  Proof.
    intros H. pose proof (nohs _ _ _ _ _ _ _ H eq_refl) as ->. pose proof (okh_steps _ _ _ _ _ _ _ _ _ _ _ H) as St.
    apply hi_act in H as (? & ? & _ & _ & M & _ & _ & E & _). ev E. unfold act_boolean_op in E. inversion E; subst. clear E. eexists. split; [reflexivity|]. cbn [bo_op].
    do 4 (apply mi_choice1 in M as [M|M]; [apply mi_lit in M; [|repeat constructor]; split; [rewrite M; now cbn|]; apply S_tok; [exact St|rewrite M; now cbn]|]).
    apply mi_choice1 in M as [M|M]; [now apply mi_soft in M|now apply mi_choice0 in M].
  Qed.
  Lemma r_compare p v en q hs : okh compareExpression_e [] p v en q hs -> Reach data p -> t_expr p v q hs.
  Proof.
    intros H R0. act H E. hone H.
    match goal with A : HidFacts.okh _ _ _ _ cmpop_e _ _ _ _ _ _ |- _ => apply h_cmpop in A as (o & -> & Lo) end.
    ev E. unfold act_compare in E. two. rewrite E1, E2 in E. inversion E; subst. exp.
  Qed.
  Lemma r_regexp p v en q hs : okh regexpExpression_e [] p v en q hs -> Reach data p -> t_expr p v q hs.
  Proof.
    intros H R0. act H E. hone H. ev E. unfold act_regexp_expr in E.
    match goal with A : t_rvalue p _ _ _ |- _ => destruct A as (r1 & E1 & L1) end.
    match goal with A : HidFacts.okh _ _ _ _ reop_e _ _ _ _ _ _ |- _ => apply h_reop in A as (o & -> & Lo) end.
    match goal with A : HidFacts.okh _ _ _ _ (EChoice _) _ ?p1 ?k _ ?p2 ?h |- _ =>
      assert (Z : exists r, as_strorre k = Some r /\ S p1 (pc_strorre r) p2 h); [clear E|] end.
    { match goal with N : HidFacts.okh _ _ _ _ (EChoice _) _ _ _ _ _ _ |- _ => rename N into HN;
        apply hi_choice in HN as [(_ & en1 & HN)|HN]; [|apply hi_choice in HN as [(_ & en1 & HN)|HN]; [|now apply hi_choice0 in HN]] end.
      - apply h_string in HN as (s & -> & HN). eexists. split; [reflexivity|exact HN].
      - apply h_regexp in HN as (s & -> & HN). eexists. split; [reflexivity|exact HN]. }
    destruct Z as (r2 & E2 & L2).
    rewrite E1, E2 in E. inversion E; subst. exp.
  Qed.
  Lemma r_rv p v en q hs : okh (EAct (ARvalue "rv") (ELab "rv" (ERef "rvalue"))) [] p v en q hs -> Reach data p -> t_expr p v q hs.
  Proof.
    intros H R0. act H E. hone H. ev E. unfold act_rvalue in E.
    match goal with A : t_rvalue p _ _ _ |- _ => destruct A as (r1 & E1 & L1) end.
    rewrite E1 in E. inversion E; subst. exp.
  Qed.
  Lemma r_paren p v en q hs : okh paren_e [] p v en q hs -> Reach data p -> t_expr p v q hs.
  Proof.
    intros H R0. act H E. hone H. ev E. unfold act_cond_expr in E.
    match goal with A : t_cond _ _ _ _ |- _ => destruct A as (c & -> & Lc) end.
    inversion E; subst. exp.
  Qed.
  Lemma r_neg p v en q hs : okh negativeExpression_e [] p v en q hs -> Reach data p -> t_expr p v q hs.
  Proof.
    intros H R0. apply hi_choice in H as [(_ & en1 & H)|H].
    - act H E. hone H. ev E. unfold act_cond_expr in E. match goal with A : t_cond _ _ _ _ |- _ => destruct A as (c & -> & Lc) end.
      inversion E; subst. exp.
    - apply hi_choice in H as [(_ & en1 & H)|H]; [|now apply hi_choice0 in H]. act H E. hone H. ev E. unfold act_neg_selector in E.
      inversion E; subst. exp.
  Qed.
  Lemma r_expression p v en q hs : okh expression_e [] p v en q hs -> Reach data p -> t_expr p v q hs.
  Proof.
    intros H R0. apply hi_choice in H as [(_ & en1 & H)|H]; [now apply r_paren in H|].
    do 5 (apply hi_choice in H as [(_ & en1 & H)|H]; [hone H; exact H|]).
    apply hi_choice in H as [(_ & en1 & H)|H]; [now apply r_rv in H|now apply hi_choice0 in H].
  Qed.
  Lemma set_bo_body e o : pc_body (set_bool_op e o) = pc_body e. Proof. destruct e; reflexivity. Qed.
  Lemma set_bo_of e o : e <> ExNil -> bo_of (set_bool_op e o) = o. Proof. destruct e; try reflexivity. congruence. Qed.
  Lemma r_more_expr p v en q hs : okh more_expr_e [] p v en q hs -> Reach data p -> exists e, v_expr v = Some e /\ True /\ S p (pc_cexpr e) q hs.
  Proof.
    intros H R0. act H E. hone H.
    match goal with A : HidFacts.okh _ _ _ _ boolop_e _ _ _ _ _ _ |- _ => apply h_boolop in A as (o & -> & Eo & Lo) end.
    ev E. unfold act_expression in E. match goal with A : t_expr _ _ _ _ |- _ => destruct A as (e & -> & W & _ & Le) end.
    inversion E; subst. eexists. split; [reflexivity|]. split; [exact I|]. unfold pc_cexpr. rewrite set_bo_body, set_bo_of by exact W.
    replace (match bo_op o with BoNone => [] | o0 => [PHid; PTok (boolop_word o0); PHid] end) with [PHid; PTok (boolop_word (bo_op o)); PHid] by (destruct (bo_op o); congruence).
    spell.
  Qed.
  Lemma r_condition p v en q hs : okh condition_e [] p v en q hs -> Reach data p -> t_cond p v q hs.
  Proof.
    intros H R0. act H E. hone H. ev E. unfold act_condition in E. match goal with A : t_expr _ _ _ _ |- _ => destruct A as (e & -> & W & Eb & Le) end.
    match goal with N : HidFacts.okht _ _ _ _ _ _ _ _ _ |- _ => eapply (okht_S v_expr (fun _ => True) pc_cexpr) in N as (xs & E1 & _ & E3); [|exact r_more_expr|reach] end.
    cbn [iface_slice app exprs_loop] in E. rewrite (exprs_some _ _ E1) in E. inversion E; subst. eexists. split; [reflexivity|].
    change (pc_cond (Cond ?l)) with (flat_map pc_cexpr l). cbn [flat_map]. replace (pc_cexpr e) with (pc_body e) by (unfold pc_cexpr; now rewrite Eb). spell.
  Qed.

  (** ** Blocks *)
  Lemma bop_here p v q hs : t_bop p v q hs -> exists x, as_bop v = Some x /\ S p (pc_bop x) q hs.
  Proof.
    intros [(i & es & e & q0 & -> & A & B & _)|(x & q0 & -> & _ & A & B & _)]; eexists; (split; [reflexivity|]).
    - change (pc_bop (BBranch i es e)) with ([PGap Plain (match i with IfB _ _ _ c _ => c end)] ++ branch_body i es e). spell.
    - change (pc_bop (BPlugin x)) with ([PGap Plain (match x with Plugin _ _ _ c _ => c end)] ++ pc_plugin x). spell.
  Qed.
  Lemma branch_com p' c l c' f f2 es e : branch_body (IfB p' c l c' f) es e = branch_body (IfB p' c l f2 f) es e.
  Proof. reflexivity. Qed.
  Lemma r_block_bop p v en q hs : okh block_bop_e [] p v en q hs -> Reach data p -> exists x, as_bop v = Some x /\ True /\ S p (pc_bop x) q hs.
  Proof.
    intros H R0. act H E. hone H. ev E. unfold act_bop_comment in E.
    match goal with A : t_bop _ _ _ _ |- _ => destruct A as [([p' c l c' f] & es & e & q0 & -> & _ & Lx & Z)|([p' n l c f] & q0 & -> & _ & _ & Lx & Z)] end;
      rewrite (Z ltac:(assumption)) in Lx; inversion E; subst; eexists; (split; [reflexivity|]); (split; [exact I|]).
    - match goal with |- S _ (pc_bop (BBranch ?i es e)) _ _ => change (pc_bop (BBranch i es e)) with ([PGap Plain (match i with IfB _ _ _ c _ => c end)] ++ branch_body i es e) end.
      rewrite (branch_com _ _ _ _ _ c'). spell.
    - match goal with |- S _ (pc_bop (BPlugin ?x)) _ _ => change (pc_bop (BPlugin x)) with ([PGap Plain (match x with Plugin _ _ _ c _ => c end)] ++ pc_plugin x) end.
      change (pc_plugin (Plugin p' n l ?c2 f)) with (pc_plugin (Plugin p' n l c f)). spell.
  Qed.
  Ltac bops := match goal with N : HidFacts.okht _ _ _ _ _ _ _ _ _ |- _ =>
    eapply (okht_S as_bop (fun _ => True) pc_bop) in N as (bs & B1 & _ & B3); [apply bops_val in B1|exact r_block_bop|reach] end.
  Lemma r_if p v en q hs : okh ifCond_e [] p v en q hs -> Reach data p -> t_if p v q hs.
  Proof.
    intros H R0. act H E. hone H. ev E. unfold act_if_block in E. bops.
    match goal with A : t_cond _ _ _ _ |- _ => destruct A as (c & -> & Lc) end. rewrite B1 in E. inversion E; subst.
    eexists. split; [reflexivity|]. cbn [pc_if]. spell.
  Qed.
  Lemma r_elseif p v en q hs : okh elseIf_e [] p v en q hs -> Reach data p -> t_elseif p v q hs.
  Proof.
    intros H R0. act H E. hone H. ev E. unfold act_if_block in E. bops.
    match goal with A : t_cond _ _ _ _ |- _ => destruct A as (c & -> & Lc) end. rewrite B1 in E. inversion E; subst.
    eexists. split; [reflexivity|]. cbn [pc_if]. spell.
  Qed.
  Lemma r_else p v en q hs : okh elseCond_e [] p v en q hs -> Reach data p -> t_else p v q hs.
  Proof.
    intros H R0. act H E. hone H. ev E. unfold act_else_block in E. bops.
    rewrite B1 in E. inversion E; subst. eexists _, _. split; [reflexivity|]. spell.
  Qed.
  Definition pc_elseif (x : ifblock) : list piece := [PGap Plain (match x with IfB _ _ _ c _ => c end); tok "else"; PHid] ++ pc_if x.
  Lemma r_more_elseif p v en q hs : okh more_elseif_e [] p v en q hs -> Reach data p -> exists x, v_elseif v = Some x /\ True /\ S p (pc_elseif x) q hs.
  Proof.
    intros H R0. act H E. hone H. ev E. unfold act_else_if_comment in E.
    match goal with A : t_elseif _ _ _ _ |- _ => destruct A as ([p' c l c' f] & -> & Lx) end. inversion E; subst. eexists. split; [reflexivity|]. split; [exact I|].
    unfold pc_elseif. change (pc_if (IfB p' c l ?c2 f)) with (pc_if (IfB p' c l c' f)). spell.
  Qed.
  Lemma r_else_opt p v q hs : (exists en, okh else_e [] p v en q hs) \/ (v = VNil /\ q = p /\ hs = []) -> Reach data p ->
    exists e, (v = VElse e \/ v = VNil /\ e = zero_else) /\ S p (pc_else e) q hs.
  Proof.
    intros [(en & H)|(-> & -> & ->)] R0.
    - act H E. hone H. ev E. unfold act_else_comment in E.
      match goal with A : t_else ?p1 _ _ _ |- _ => destruct A as (l & f & -> & Lx); assert (Z : is_zero (pt_pos p1) = false) by (apply (reach_zero data); reach) end. inversion E; subst. eexists. split; [left; reflexivity|].
      cbn [pc_else]. rewrite Z. spell.
    - exists zero_else. split; [auto|]. apply S_nil.
  Qed.
  Lemma r_branch p v en q hs : okh branch_e [] p v en q hs -> Reach data p -> t_branch p v q hs.
  Proof.
    intros H R0. act H E. hone H. ev E. unfold act_branch in E.
    match goal with A : t_if _ _ _ _ |- _ => destruct A as ([p' c l c' f] & -> & Lx) end.
    match goal with N : HidFacts.okht _ _ _ _ _ _ _ _ _ |- _ => eapply (okht_S v_elseif (fun _ => True) pc_elseif) in N as (xs & E1 & _ & E3); [|exact r_more_elseif|reach] end.
    match goal with A : _ \/ _ |- _ => apply r_else_opt in A as (e & Ee & Le); [|reach] end.
    cbn [iface_slice] in E. rewrite (else_ifs_some _ _ E1) in E.
    match type of E with context [match ?m with Some _ => _ | None => _ end] => replace m with (Some e) in E by (destruct Ee as [-> |[-> ->]]; reflexivity) end.
    inversion E; subst. eexists _, _, _, _. split; [reflexivity|]. split; [match goal with A : GV p _ _ |- _ => apply A end|]. split; [|assumption].
    match goal with |- S _ (branch_body ?i _ _) _ _ => change (branch_body i xs e) with (pc_if (IfB p' c l c' f) ++ flat_map pc_elseif xs ++ pc_else e) end. spell.
  Qed.
  Lemma r_bop p v en q hs : okh branchOrPlugin_e [] p v en q hs -> Reach data p -> t_bop p v q hs.
  Proof.
    intros H R0. apply hi_choice in H as [(_ & en1 & H)|H]; [hone H; now left|].
    apply hi_choice in H as [(_ & en1 & H)|H]; [hone H; now right|now apply hi_choice0 in H].
  Qed.

  (** ** Sections *)
  Lemma h_ptype en p v en' q hs : okh ptype_e en p v en' q hs -> exists t, v = VPType t /\ t <> PTUndef /\ S p [PTok (ptype_string t)] q hs.
  Proof.
    intros H. pose proof (nohs _ _ _ _ _ _ _ H eq_refl) as ->.
    do 3 (apply hi_choice in H as [(_ & en1 & H)|H];
      [apply hi_act in H as (? & ? & _ & _ & M & _ & St & E & _); ev E; inversion E; subst; eexists; (split; [reflexivity|]); split; [discriminate|]; apply mi_lit in M; [now apply S_tok|repeat constructor]|]).
    apply hi_choice in H as [(_ & en1 & H)|H]; [now apply hi_and in H as (X & _)|now apply hi_choice0 in H].
  Qed.
  Lemma r_sec_bop p v en q hs : okh (EAct (ARet "bop") (ELab "bop" (ERef "branchOrPlugin"))) [] p v en q hs -> Reach data p -> exists x, as_bop v = Some x /\ True /\ S p (pc_bop x) q hs.
  Proof. intros H R0. act H E. hone H. ev E. inversion E; subst. apply bop_here in H as (x & A & B). eauto. Qed.
  Lemma r_section p v en q hs : okh pluginSection_e [] p v en q hs -> Reach data p -> t_section p v q hs.
  Proof.
    intros H R0. act H E. hone H.
    match goal with A : HidFacts.okh _ _ _ _ ptype_e _ _ _ _ _ _ |- _ => apply h_ptype in A as (t & -> & Ht & Lt) end.
    ev E. unfold act_plugin_section in E.
    match goal with N : HidFacts.okht _ _ _ _ _ _ _ _ _ |- _ => eapply (okht_S as_bop (fun _ => True) pc_bop) in N as (bs & B1 & _ & B3); [|exact r_sec_bop|reach] end.
    cbn [iface_slice] in E. rewrite B1 in E. inversion E; subst. eexists. split; [reflexivity|]. split; [exact Ht|]. unfold sec_body. cbn [ps_type ps_bops ps_foot]. spell.
  Qed.
  Lemma r_next p v en q hs : okh next_section_e [] p v en q hs -> Reach data p -> exists s, v_section v = Some s /\ ps_type s <> PTUndef /\ S p (pc_section Plain s) q hs.
  Proof.
    intros H R0. act H E. hone H. ev E. unfold act_config_section in E.
    match goal with A : t_section _ _ _ _ |- _ => destruct A as (s & -> & Ht & Ls) end. inversion E; subst.
    eexists. split; [reflexivity|]. split; [exact Ht|].
    match goal with |- S _ (pc_section _ (set_ps_com s ?c)) _ _ => change (pc_section Plain (set_ps_com s c)) with (PGap Plain c :: sec_body s) end. spell.
  Qed.
  Lemma config_types com vs : forall (first : bool) ss i f o, all_some v_section vs = Some ss -> Forall (fun s => ps_type s <> PTUndef) ss ->
    let ss' := if first then map_first (fun s => set_ps_com s com) ss else ss in
    config_loop com first vs i f o = inl (i ++ of_type PTInput ss', f ++ of_type PTFilter ss', o ++ of_type PTOutput ss').
  Proof.
    induction vs as [|v vs IH]; intros first ss i f o E W.
    - inversion E; subst. destruct first; cbn; now rewrite !app_nil_r.
    - cbn [all_some] in E. destruct v; try discriminate E. cbn [v_section] in E. destruct (all_some v_section vs) as [ss0|] eqn:E0; [|discriminate]. inversion E; subst. inversion W as [|? ? W1 W2]; subst.
      cbn [config_loop map_first]. specialize (fun i f o => IH false _ i f o eq_refl W2). cbn iota in IH. cbv zeta.
      assert (Ht : ps_type (if first then set_ps_com s com else s) = ps_type s) by now destruct first.
      rewrite Ht. replace (if first then set_ps_com s com :: ss0 else s :: ss0) with ((if first then set_ps_com s com else s) :: ss0) by now destruct first.
      unfold of_type in *. cbn [filter].
      assert (Hi : forall t, is_type t (if first then set_ps_com s com else s) = is_type t s) by (intros; unfold is_type; now rewrite Ht).
      rewrite !Hi. assert (Hs : forall t, is_type t s = match ps_type s, t with PTInput, PTInput | PTFilter, PTFilter | PTOutput, PTOutput | PTUndef, PTUndef => true | _, _ => false end) by reflexivity.
      rewrite !Hs.
      destruct (ps_type s); try congruence; rewrite IH, <- ?app_assoc; reflexivity.
  Qed.
  Lemma r_config p v en q hs : okh config_e [] p v en q hs -> Reach data p -> t_config p v q hs.
  Proof.
    intros H R0. act H E. hone H. ev E. unfold act_config in E.
    match goal with A : t_section _ _ _ _ |- _ => destruct A as (s & -> & Ht & Ls) end.
    match goal with N : HidFacts.okht _ _ _ _ _ _ _ _ _ |- _ => eapply (okht_S v_section (fun s => ps_type s <> PTUndef) (pc_section Plain)) in N as (ss & E1 & E2 & E3); [|exact r_next|reach] end.
    cbn [iface_slice app] in E.
    match type of E with context [config_loop ?c _ (_ :: ?vs)] => assert (C := config_types c (VSection s :: vs) true (s :: ss) [] [] []) end.
    cbn [all_some v_section] in C. rewrite E1 in C. specialize (C eq_refl (Forall_cons s Ht E2)). cbn zeta in C. cbn [app map_first] in C. rewrite C in E.
    inversion E; subst. clear E C.
    match goal with |- context [set_ps_com s ?c] => exists (Config (of_type PTInput (set_ps_com s c :: ss)) (of_type PTFilter (set_ps_com s c :: ss)) (of_type PTOutput (set_ps_com s c :: ss)) (comment_block x2 true false) []), (set_ps_com s c :: ss) end.
    split; [reflexivity|]. split; [constructor; assumption|]. split; [|split; [discriminate|repeat split]].
    match goal with |- context [set_ps_com s ?c] => cbn [cf_foot]; unfold pc_config; cbn [flat_map]; change (pc_section Top (set_ps_com s c)) with (PGap Top c :: sec_body s) end. spell.
  Qed.

  Lemma spell_inv n e p v en q hs : find_rule n g = Some e -> okh e [] p v en q hs -> Reach data p -> (exists en2, peg ign g e [] p (POk v en2 q)) -> T n p v q hs.
  Proof.
    intros F H R P. rewrite rules_are_generated in F. unfold rules in F. cbn [find_rule] in F.
    repeat match type of F with (if String.eqb ?k n then _ else _) = _ =>
      destruct (String.eqb_spec k n) as [<-|]; [inversion F; subst; clear F;
        cbv [T invs find_inv String.eqb Ascii.eqb Bool.eqb];
        first [exact I | now apply r_config in H | now apply r_section in H | now apply r_bop in H | now apply r_plugin in H | now apply r_attribute in H
              | now apply r_value in H | now apply r_array in H | now apply r_hash in H | now apply r_hentries in H | now apply r_hentry in H | now apply r_branch in H
              | now apply r_if in H | now apply r_elseif in H | now apply r_else in H | now apply r_condition in H | now apply r_expression in H | now apply r_neg in H
              | now apply r_in in H | now apply r_not_in in H | now apply r_rvalue in H | now apply r_compare in H | now apply r_regexp in H]|] end.
    discriminate F.
  Qed.
End Spell.
