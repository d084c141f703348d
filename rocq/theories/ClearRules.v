(** A tree that was read can be read back: its plugins can be told from branches. *)
From Coq Require Import List NArith ZArith Bool String Arith Lia.
From Verif Require Import Bytes Utf8 F64 Ast Peg Actions Engine Parser GrammarGen AstPrint EscapeFacts QuoteFacts PosFacts Run EngineFacts
  Matches ParseFacts Termination PegSem PegFacts Det LexFacts Tree Rules Reads Layout Spelled GapComments Written FreeLex FreeWord FreeBop Sound SoundLex SoundRules.
Import ListNotations.
Notation gap_e := Rules.gap_e.

Section Clear.
  Variable data : bytes.
  Notation ign := true.
  Notation g := gen_grammar.

  (** the name [n] of a plugin stands at [p], after a gap *)
  Definition begins (n : bytes) (p : point) : Prop := exists t s, pt_rest p = t ++ n ++ s /\ gap_run t (n ++ s) /\ opening s.
  Definition no_else_at (q : point) : Prop := forall n, begins n q -> name_ok n -> ~ takes_else n.
  Definition info (x : bop) (p q : point) : Prop :=
    clear_bop x /\ (match x with BPlugin y => name_ok (pname y) /\ begins (pname y) p | BBranch _ _ _ => True | _ => False end) /\ (xopen x -> no_else_at q).

  Definition t_config (p : point) (v : val) (q : point) : Prop :=
    exists c, v = VConfig c /\ All clear_section (cf_input c) /\ All clear_section (cf_filter c) /\ All clear_section (cf_output c).
  Definition t_section (p : point) (v : val) (q : point) : Prop := exists s, v = VSection s /\ clear_section s.
  Definition t_bop (p : point) (v : val) (q : point) : Prop := exists x, as_bop v = Some x /\ info x p q.
  Definition t_plugin (p : point) (v : val) (q : point) : Prop := exists x, v = VPlugin x /\ name_ok (pname x) /\ begins (pname x) p.
  Definition t_branch (p : point) (v : val) (q : point) : Prop := exists i es e, v = VBranch i es e /\ info (BBranch i es e) p q.
  Definition t_if (p : point) (v : val) (q : point) : Prop := exists x, v = VIf x /\ clear_if x.
  Definition t_elseif (p : point) (v : val) (q : point) : Prop := exists x, v = VElseIf x /\ clear_if x.
  Definition t_else (p : point) (v : val) (q : point) : Prop := exists l f, v = VElse (ElB (pt_pos p) l [] f) /\ All clear_bop l /\ all_parted l.
  Definition t_cond (p : point) (v : val) (q : point) : Prop := exists c, v = VCond c.

  Definition invs : list (string * (point -> val -> point -> Prop)) :=
    [("init", t_config); ("config", t_config); ("pluginSection", t_section); ("branchOrPlugin", t_bop); ("plugin", t_plugin);
     ("branch", t_branch); ("ifCond", t_if); ("elseIf", t_elseif); ("elseCond", t_else); ("condition", t_cond)]%string.
  Fixpoint find_inv (n : string) (l : list (string * (point -> val -> point -> Prop))) : point -> val -> point -> Prop :=
    match l with [] => fun _ _ _ => True | (k, t) :: l' => if String.eqb k n then t else find_inv n l' end.
  Definition T (n : string) : point -> val -> point -> Prop := find_inv n invs.

  Notation ok := (Sound.ok ign g data T).
  Notation okt := (Sound.okt ign g data T).

  (** ** Gaps *)
  Lemma act_peg a e en p v en' q : ok (EAct a e) en p v en' q -> peg ign g (EAct a e) en p (POk v en' q).
  Proof. intros H. apply oi_act in H as (v0 & _ & H & _ & _ & _ & E). eapply peg_act; eauto. Qed.
  Lemma gaps_peg p l q : okt (EChoice [comment_e; ws_e]) p l q -> pegt ign g (EChoice [comment_e; ws_e]) p (Some (l, q)).
  Proof.
    revert p. induction l as [|v l IH]; intros p H; inversion H; subst; [now apply pegt_stop|].
    eapply pegt_more; [|apply IH; eassumption]. match goal with A : Sound.ok _ _ _ _ (EChoice _) _ _ _ _ _ |- _ => rename A into K end.
    apply oi_choice' in K as [(_ & en1 & K)|[F K]]; [eapply peg_choice; apply act_peg in K; exact K|].
    apply peg_choice_next; [exact F|]. apply oi_choice' in K as [(_ & en1 & K)|[_ K]]; [eapply peg_choice; apply act_peg in K; exact K|now apply oi_choice0 in K].
  Qed.
  Lemma gap_here en p v en' q : ok gap_e en p v en' q -> en' = en /\ Steps p q /\ gap_run (seg p q) (pt_rest q).
  Proof.
    intros H. pose proof (ok_steps _ _ _ _ _ _ _ _ _ _ H) as S. apply oi_star in H as (-> & l & -> & H). apply gaps_peg, gap_runs in H. auto.
  Qed.
  Lemma gaps_here en p v en' q : ok gaps_e en p v en' q -> en' = en /\ Steps p q /\ gap_run (seg p q) (pt_rest q).
  Proof.
    intros H. apply oi_act in H as (v0 & H & _). now apply gap_here in H.
  Qed.
  Lemma begins_gap p q n : Steps p q -> gap_run (seg p q) (pt_rest q) -> begins n q -> begins n p.
  Proof.
    intros S G (t & s & E & H & O). exists (seg p q ++ t), s. rewrite (steps_seg p q S), E, <- app_assoc. split; [reflexivity|]. split; [|exact O].
    rewrite E in G. now apply run_app.
  Qed.

  (** ** Tactics *)
  Ltac reach := repeat first [eassumption | eapply r_step; [|eassumption]].
  Ltac st H := let S := fresh "S" in pose proof (ok_steps _ _ _ _ _ _ _ _ _ _ H) as S.
  Ltac one H :=
    match type of H with
    | Sound.ok _ _ _ _ (ESeq []) _ _ _ _ _ => apply oi_seq0 in H as (-> & ->)
    | Sound.ok _ _ _ _ (ESeq (_ :: _)) _ _ _ _ _ =>
        let K := fresh "K" in apply oi_seq in H as (? & ? & ? & ? & K & H); one K; one H
    | Sound.ok _ _ _ _ (ELab _ _) _ _ _ _ _ => apply oi_lab in H as (-> & ? & H); one H
    | Sound.ok _ _ _ _ (EStateCode _) _ _ _ _ _ => apply oi_state in H as (-> & ->)
    | Sound.ok _ _ _ _ warn_e _ _ _ _ _ => apply oi_state in H as (-> & ->)
    | Sound.ok _ _ _ _ (EAndCode _) _ _ _ _ _ => apply oi_and in H as (? & -> & ->)
    | Sound.ok _ _ _ _ gaps_e _ _ _ _ _ => let G := fresh "G" in let S := fresh "S" in apply gaps_here in H as (-> & S & G)
    | Sound.ok _ _ _ _ gap_e _ _ _ _ _ => let G := fresh "G" in let S := fresh "S" in apply gap_here in H as (-> & S & G)
    | Sound.ok _ _ _ _ (ENot _) _ _ _ _ _ => apply oi_not in H as (-> & ->)
    | Sound.ok _ _ _ _ eof_e _ _ _ _ _ => apply oi_not in H as (-> & ->)
    | Sound.ok _ _ _ _ (lit _) _ _ _ _ _ => st H; apply oi_lit in H as (-> & _ & H); apply lit_ascii in H; [|repeat constructor]
    | Sound.ok _ _ _ _ (ERef _) _ _ _ _ _ => st H; apply oi_ref in H as (-> & _ & ? & H);
        cbv [T invs find_inv String.eqb Ascii.eqb Bool.eqb] in H
    | Sound.ok _ _ _ _ (close _ _) _ _ _ _ _ => st H; pose proof (ok_choice_env _ _ _ _ _ _ _ _ _ _ H) as ->
    | Sound.ok _ _ _ _ name_e _ _ _ _ _ => st H; apply ok_name in H as (H & ->)
    | Sound.ok _ _ _ _ (EOpt _) _ _ _ _ _ => st H; apply oi_opt' in H as (-> & H)
    | Sound.ok _ _ _ _ (EStar _) _ _ _ _ _ => st H; apply oi_star in H as (-> & ? & -> & H)
    | Sound.ok _ _ _ _ (EChoice _) _ _ _ _ _ => st H; pose proof (ok_choice_env _ _ _ _ _ _ _ _ _ _ H) as ->
    | _ => st H
    end.
  Ltac act H E := let R := fresh "R" in let S := fresh "S" in let M := fresh "M" in
    apply oi_act in H as (? & H & _ & M & R & S & E).
  Ltac ev E := cbn [run_action lookup bind String.eqb Ascii.eqb Bool.eqb] in E.

  Lemma brace_at x y z w n : seg x y = n -> gap_run (seg y z) (pt_rest z) -> Steps y z -> seg z w = b "{" -> Steps x y -> Steps z w -> begins n x.
  Proof.
    intros A Gy Sy B Sx Sz. exists [], (pt_rest y). split; [rewrite <- A; exact (steps_seg _ _ Sx)|]. split; [constructor|].
    exists (seg y z), (pt_rest w). pose proof (steps_seg _ _ Sz) as Ez. rewrite B in Ez. change (pt_rest z = 123%N :: pt_rest w) in Ez. rewrite <- Ez.
    split; [exact (steps_seg _ _ Sy)|exact Gy].
  Qed.
  Lemma r_plugin p v en q : ok plugin_e [] p v en q -> Reach data p -> t_plugin p v q.
  Proof.
    intros H R0. act H E. one H. ev E. match goal with A : is_name _ _ _ |- _ => destruct A as (s & -> & _ & Es & Hn) end.
    assert (Ex : exists l c f, v = VPlugin (Plugin (sa_pos s) (sa_value_string s) l c f)).
    { revert E. unfold act_plugin. match goal with |- match (match ?m with _ => _ end) with _ => _ end = _ -> _ => destruct m end; intros E; inversion E; subst; eauto. }
    destruct Ex as (l & c & f & ->). eexists. split; [reflexivity|]. cbn [pname]. split; [exact Hn|].
    match goal with A : seg ?x ?y = sa_value_string s, Gy : gap_run (seg ?y ?z) (pt_rest ?z), Sy : Steps ?y ?z, B : seg ?z ?w = b "{", Sx : Steps ?x ?y, Sz : Steps ?z ?w, S0 : Steps p ?x |- _ =>
      pose proof (brace_at x y z w _ A Gy Sy B Sx Sz) as Bx; exact (begins_gap p x _ S0 ltac:(assumption) Bx) end.
  Qed.
  Lemma bop_info p v q : t_bop p v q -> exists x, as_bop v = Some x /\ info x p q.
  Proof. exact (fun H => H). Qed.
  Lemma r_block_bop p v en q : ok block_bop_e [] p v en q -> Reach data p -> exists x, as_bop v = Some x /\ info x p q.
  Proof.
    intros H R0. act H E. one H. ev E. unfold act_bop_comment in E. match goal with A : t_bop _ _ _ |- _ => destruct A as (x' & Ex & C & B & O) end.
    match type of E with match ?w with _ => _ end = _ => destruct w; try discriminate E end; inversion Ex; subst; clear Ex.
    - destruct p0 as [pp n l c f]. inversion E; subst. eexists. split; [reflexivity|]. split; [exact C|]. split; [|intros []]. destruct B as [B1 B2].
      split; [exact B1|]. match goal with G : gap_run (seg p ?m) _, S : Steps p ?m |- _ => exact (begins_gap p m _ S G B2) end.
    - match type of E with match ?w with _ => _ end = _ => destruct w as [pp cc l c f] end. inversion E; subst. eexists. split; [reflexivity|]. split; [exact C|]. split; [exact I|exact O].
  Qed.
  Lemma list_info e : (forall p v en q, ok e [] p v en q -> Reach data p -> exists x, as_bop v = Some x /\ info x p q) ->
    forall l p q, okt e p l q -> Reach data p -> exists xs, all_some as_bop l = Some xs /\ All clear_bop xs /\ all_parted xs /\
      match xs with BPlugin y :: _ => name_ok (pname y) /\ begins (pname y) p | BPluginPtr _ :: _ => False | _ => True end.
  Proof.
    intros H. induction l as [|v l IH]; intros p q K R; inversion K; subst.
    - exists []. cbn. auto.
    - match goal with A : Sound.ok _ _ _ _ e _ p _ _ ?q1, B : Sound.okt _ _ _ _ _ _ l _ |- _ =>
        destruct (H _ _ _ _ A R) as (x & E1 & E2 & E3 & E4); destruct (IH _ _ B) as (xs & F1 & F2 & F3 & F4);
        [eapply steps_reach; [exact R|exact (ok_steps _ _ _ _ _ _ _ _ _ _ A)]|] end.
      exists (x :: xs). cbn [all_some]. rewrite E1, F1. split; [reflexivity|]. split; [split; assumption|]. split.
      + split; [|exact F3]. destruct xs as [|[|y|y|i es eb] xs]; try exact I; destruct x as [| | |ib [|] [z ? ? ?]]; try exact I; cbn [parted]; try contradiction;
          intros Z; (apply (E4 Z); apply F4).
      + destruct x; try exact I; try contradiction. exact E3.
  Qed.
  Ltac bops := match goal with N : Sound.okt _ _ _ _ _ _ _ _ |- _ =>
    eapply (list_info _ r_block_bop) in N as (bs & B1 & B2 & B3 & _); [apply bops_val in B1|reach] end.
  Lemma r_condition p v en q : ok condition_e [] p v en q -> Reach data p -> t_cond p v q.
  Proof.
    intros H R0. act H E. ev E. unfold act_condition in E. match type of E with match ?w with _ => _ end = _ => destruct w end; inversion E; subst. eexists; reflexivity.
  Qed.
  Lemma r_if p v en q : ok ifCond_e [] p v en q -> Reach data p -> t_if p v q.
  Proof.
    intros H R0. act H E. one H. ev E. unfold act_if_block in E. bops. match goal with A : t_cond _ _ _ |- _ => destruct A as (c & ->) end.
    rewrite B1 in E. inversion E; subst. eexists. split; [reflexivity|]. split; assumption.
  Qed.
  Lemma r_elseif p v en q : ok elseIf_e [] p v en q -> Reach data p -> t_elseif p v q.
  Proof.
    intros H R0. act H E. one H. ev E. unfold act_if_block in E. bops. match goal with A : t_cond _ _ _ |- _ => destruct A as (c & ->) end.
    rewrite B1 in E. inversion E; subst. eexists. split; [reflexivity|]. split; assumption.
  Qed.
  Lemma r_else p v en q : ok elseCond_e [] p v en q -> Reach data p -> t_else p v q.
  Proof.
    intros H R0. act H E. one H. ev E. unfold act_else_block in E. bops. rewrite B1 in E. inversion E; subst. eexists _, _. split; [reflexivity|]. split; assumption.
  Qed.
  Lemma r_more_elseif p v en q : ok more_elseif_e [] p v en q -> Reach data p -> exists x, v_elseif v = Some x /\ clear_if x.
  Proof.
    intros H R0. act H E. one H. ev E. unfold act_else_if_comment in E. match goal with A : t_elseif _ _ _ |- _ => destruct A as ([p' c l c' f] & -> & W) end.
    inversion E; subst. eexists. split; [reflexivity|exact W].
  Qed.
  Lemma elseifs_clear l : forall p q, okt more_elseif_e p l q -> Reach data p -> exists xs, all_some v_elseif l = Some xs /\ All clear_if xs.
  Proof.
    induction l as [|v l IH]; intros p q K R; inversion K; subst; [exists []; cbn; auto|].
    match goal with A : Sound.ok _ _ _ _ _ _ p _ _ ?q1, B : Sound.okt _ _ _ _ _ _ l _ |- _ =>
      destruct (r_more_elseif _ _ _ _ A R) as (x & E1 & E2); destruct (IH _ _ B) as (xs & F1 & F2); [eapply steps_reach; [exact R|exact (ok_steps _ _ _ _ _ _ _ _ _ _ A)]|] end.
    exists (x :: xs). cbn [all_some]. rewrite E1, F1. split; [reflexivity|]. split; assumption.
  Qed.
  Lemma r_branch p v en q : ok branch_e [] p v en q -> Reach data p -> t_branch p v q.
  Proof.
    intros H R0. act H E. one H. ev E. unfold act_branch in E. match goal with A : t_if _ _ _ |- _ => destruct A as ([p' c l c' f] & -> & W) end.
    match goal with N : Sound.okt _ _ _ _ _ ?a _ ?z |- _ => rename N into HN; pose proof (okt_end _ _ _ _ _ _ _ _ HN) as Z1; pose proof (elseifs_clear _ _ _ HN ltac:(reach)) as (xs & E1 & E2) end.
    cbn [iface_slice] in E. rewrite (else_ifs_some _ _ E1) in E.
    match goal with A : _ \/ _ |- _ => destruct A as [(en1 & HA)|(-> & -> & Z2)] end.
    - act HA E'. one HA. ev E'. unfold act_else_comment in E'. match goal with A : t_else ?p1 _ _ |- _ => destruct A as (l' & f' & -> & Wl & Wp); assert (Z : is_zero (pt_pos p1) = false) by (apply (reach_zero data); reach) end.
      inversion E'; subst. inversion E; subst. eexists _, _, _. split; [reflexivity|]. split; [split; [exact W|split; [exact E2|split; assumption]]|]. split; [exact I|]. intros X. exfalso. cbn [xopen] in X. congruence.
    - inversion E; subst. eexists _, _, _. split; [reflexivity|]. split; [split; [exact W|split; [exact E2|split; exact I]]|]. split; [exact I|]. intros _ n (t & s & En & G' & O') Hn.
      rewrite rules_are_generated in Z1, Z2. eapply no_else_failed; eauto.
  Qed.
  Lemma r_bop p v en q : ok branchOrPlugin_e [] p v en q -> Reach data p -> t_bop p v q.
  Proof.
    intros H R0. apply oi_choice' in H as [(_ & en1 & H)|[F H]].
    - one H. destruct H as (i & es & e & -> & H). eexists. split; [reflexivity|exact H].
    - apply oi_choice in H as [(_ & en1 & H)|H]; [one H|now apply oi_choice0 in H]. destruct H as (x & -> & Hn & B). eexists. split; [reflexivity|].
      split; [|split; [split; assumption|intros []]]. cbn [clear_bop]. destruct B as (t & s & En & G & O). rewrite rules_are_generated in F. eapply branch_failed; eauto.
  Qed.

  (** ** Sections *)
  Lemma r_sec_bop p v en q : ok (EAct (ARet "bop") (ELab "bop" (ERef "branchOrPlugin"))) [] p v en q -> Reach data p -> exists x, as_bop v = Some x /\ info x p q.
  Proof. intros H R0. act H E. one H. ev E. inversion E; subst. exact H. Qed.
  Lemma r_section p v en q : ok pluginSection_e [] p v en q -> Reach data p -> t_section p v q.
  Proof.
    intros H R0. act H E. one H. ev E. unfold act_plugin_section in E.
    match goal with N : Sound.okt _ _ _ _ _ _ _ _ |- _ => eapply (list_info _ r_sec_bop) in N as (bs & B1 & B2 & B3 & _); [|reach] end.
    cbn [iface_slice] in E. rewrite B1 in E. match type of E with match ?w with _ => _ end = _ => destruct w; try discriminate E end. inversion E; subst. eexists. split; [reflexivity|]. split; assumption.
  Qed.
  Lemma r_next p v en q : ok next_section_e [] p v en q -> Reach data p -> exists s, v_section v = Some s /\ clear_section s.
  Proof.
    intros H R0. act H E. one H. ev E. unfold act_config_section in E. match goal with A : t_section _ _ _ |- _ => destruct A as (s & -> & C) end.
    inversion E; subst. eexists. split; [reflexivity|exact C].
  Qed.
  Lemma sections_clear l : forall p q, okt next_section_e p l q -> Reach data p -> exists xs, all_some v_section l = Some xs /\ All clear_section xs.
  Proof.
    induction l as [|v l IH]; intros p q K R; inversion K; subst; [exists []; cbn; auto|].
    match goal with A : Sound.ok _ _ _ _ _ _ p _ _ ?q1, B : Sound.okt _ _ _ _ _ _ l _ |- _ =>
      destruct (r_next _ _ _ _ A R) as (x & E1 & E2); destruct (IH _ _ B) as (xs & F1 & F2); [eapply steps_reach; [exact R|exact (ok_steps _ _ _ _ _ _ _ _ _ _ A)]|] end.
    exists (x :: xs). cbn [all_some]. rewrite E1, F1. split; [reflexivity|]. split; assumption.
  Qed.
  Lemma All_add {A} (P : A -> Prop) l x : All P l -> P x -> All P (l ++ [x]).
  Proof. induction l as [|y l IH]; cbn; [auto|]. intros [H1 H2] H. auto. Qed.
  Lemma config_clear com vs : forall first ss i f o i' f' o', all_some v_section vs = Some ss -> All clear_section ss -> All clear_section i -> All clear_section f -> All clear_section o ->
    config_loop com first vs i f o = inl (i', f', o') -> All clear_section i' /\ All clear_section f' /\ All clear_section o'.
  Proof.
    induction vs as [|v vs IH]; intros first ss i f o i' f' o' E C Ci Cf Co L; cbn [config_loop] in L; [inversion L; subst; auto|].
    cbn [all_some] in E. destruct v; try discriminate E. cbn [v_section] in E. destruct (all_some v_section vs) as [ss0|] eqn:E0; [|discriminate]. inversion E; subst. destruct C as [C1 C2].
    assert (C3 : clear_section (if first then set_ps_com s com else s)) by (destruct first; exact C1).
    match type of L with match ?t with _ => _ end = _ => destruct t end; try discriminate L; eapply IH; try reflexivity; try exact L; auto using All_add.
  Qed.
  Lemma r_config p v en q : ok config_e [] p v en q -> Reach data p -> t_config p v q.
  Proof.
    intros H R0. act H E. one H. ev E. unfold act_config in E. match goal with A : t_section _ _ _ |- _ => destruct A as (s & -> & C) end.
    match goal with N : Sound.okt _ _ _ _ _ _ _ _ |- _ => apply sections_clear in N as (ss & E1 & E2); [|reach] end.
    cbn [iface_slice app] in E. match type of E with match ?l with _ => _ end = _ => destruct l as [[[i' f'] o']|] eqn:L end; [|discriminate E]. inversion E; subst.
    eapply config_clear in L; [|cbn [all_some v_section]; rewrite E1; reflexivity|split; assumption|exact I|exact I|exact I]. eexists. split; [reflexivity|]. exact L.
  Qed.
  Lemma r_init p v en q : ok init_e [] p v en q -> Reach data p -> t_config p v q.
  Proof.
    intros H R0. act H E. one H. ev E. unfold act_ret_config in E. match goal with A : Sound.ok _ _ _ _ (EChoice _) _ _ _ _ _ |- _ => rename A into HC end.
    apply oi_choice in HC as [(_ & en1 & HC)|HC].
    - act HC E'. one HC. ev E'. inversion E'; subst. match goal with A : t_config _ _ _ |- _ => destruct A as (c & -> & C) end. inversion E; subst. eexists. split; [reflexivity|exact C].
    - apply oi_choice in HC as [(_ & en1 & HC)|HC]; [|now apply oi_choice0 in HC]. act HC E'. ev E'. inversion E'; subst. inversion E; subst. eexists. split; [reflexivity|]. cbn. auto.
  Qed.
  Lemma rules_inv n e p v en q : find_rule n g = Some e -> ok e [] p v en q -> Reach data p -> T n p v q.
  Proof.
    intros F H R. rewrite rules_are_generated in F. unfold rules in F. cbn [find_rule] in F.
    repeat match type of F with (if String.eqb ?k n then _ else _) = _ =>
      destruct (String.eqb_spec k n) as [<-|]; [inversion F; subst; clear F;
        cbv [T invs find_inv String.eqb Ascii.eqb Bool.eqb];
        first [exact I | now apply r_init in H | now apply r_config in H | now apply r_section in H | now apply r_bop in H | now apply r_plugin in H | now apply r_branch in H
              | now apply r_if in H | now apply r_elseif in H | now apply r_else in H | now apply r_condition in H]|] end.
    discriminate F.
  Qed.
  Theorem peg_clear e p v en q : find_rule "init" g = Some e -> peg ign g e [] p (POk v en q) -> Reach data p -> t_config p v q.
  Proof.
    intros F H R. assert (Hg : grammar_lits_ok g = true) by exact gen_lits_ok.
    apply (rules_inv "init" e p v en q F); [|exact R]. eapply peg_ok; eauto using rules_inv. eapply rule_lits; eauto.
  Qed.
End Clear.
