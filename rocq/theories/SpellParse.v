(** An accepted file is the spelling of its configuration. *)
From Coq Require Import List NArith ZArith Bool String Arith Lia.
From Verif Require Import Bytes Utf8 F64 Ast Peg Actions Engine Parser GrammarGen AstPrint PosFacts Run EngineFacts
  Matches ParseFacts Termination RunInv HistFacts LimitFacts Utf8Facts InputFacts PegSem PegFacts LexFacts Tree Sound Rules ParseTree WarnFacts Spelled HidFacts GapComments SpellRules.
Import ListNotations.
Notation gap_e := Rules.gap_e.

Lemma init_conf_eq : init_conf = ELab "conf" (EChoice
       [EAct (ARet "conf") (ESeq [ELab "conf" (ERef "config"); eof_e]);
        EAct AEmptyConfig (ESeq [gap_e; eof_e])]).
Proof. reflexivity. Qed.

Lemma eof_end ign e en p v en' q : peg ign gen_grammar (ESeq [e; eof_e]) en p (POk v en' q) -> pt_rest q = [].
Proof.
  intros H. apply pi_seq in H as (v1 & en1 & q1 & l1 & _ & H & _). apply pi_seq in H as (v2 & en2 & q2 & l2 & H & K & _). apply pi_seq0 in K as (_ & _ & ->).
  apply pi_not in H as (_ & -> & H). inversion H; subst; try discriminate; assumption.
Qed.
Lemma seg_all data q : Steps (start_pt data) q -> pt_rest q = [] -> seg (start_pt data) q = data.
Proof.
  intros H E. destruct (steps_rest _ _ H) as [A _]. rewrite E, app_nil_r in A. rewrite <- A. unfold start_pt. now destruct (_ =? NL)%N.
Qed.

Theorem parse_spelled opts ff data c ff' :
  k_entry (config_of opts) = "init"%string -> parse opts ff data = (Returned (VConfig c) [], ff') ->
  (gap_run data [] /\ c = Config [] [] [] [] []) \/
  exists ss hs, ss <> [] /\ Forall (fun s => ps_type s <> PTUndef) ss /\
    cf_input c = of_type PTInput ss /\ cf_filter c = of_type PTFilter ss /\ cf_output c = of_type PTOutput ss /\
    spelled (k_ignore (config_of opts)) data 0 (pc_config ss (cf_foot c)) data hs /\
    cf_warnings c = if k_warn (config_of opts) then map warning_text (commented hs) else [].
Proof.
  intros He0 E0. assert (E := parse_unlimited _ _ _ _ _ E0). set (o1 := with_limit 0 opts) in *.
  assert (K1 : config_of o1 = PCfg 0 (k_entry (config_of opts)) (k_invalid (config_of opts)) (k_recover (config_of opts)) (k_ignore (config_of opts)) (k_warn (config_of opts))) by apply with_limit_cfg.
  assert (He : k_entry (config_of o1) = "init"%string) by (rewrite K1; exact He0).
  assert (U : utf8_text data \/ k_invalid (config_of o1) = true).
  { destruct (k_invalid (config_of o1)) eqn:I; [now right|left]. eapply parse_utf8; [|exact I|exact E]. exact He. }
  pose proof (parse_run o1 ff data) as P. rewrite He, find_init in P. destruct P as (r & R & P). rewrite E in P. clear E.
  set (o := settings_of (config_of o1)) in *.
  assert (Ho : o_max o = None) by (subst o; cbn; now rewrite K1).
  assert (Hig : o_ignore o = k_ignore (config_of opts)) by (subst o; cbn; now rewrite K1).
  assert (Hw : o_warn o = k_warn (config_of opts)) by (subst o; cbn; now rewrite K1).
  assert (Henc := enc_ok o data U).
  assert (Hi : init_st o ff data = St (start_pt data) zero_pos [] None ff [] (Pos 1 1 0) [] false 0).
  { unfold init_st. apply (check_same o data Henc). constructor. }
  rewrite Hi in R. apply init_run in R as [[K _]|[_ (r1 & R & Er)]].
  { unfold over_limit in K. rewrite Ho in K. discriminate. }
  set (s0 := started o _) in R.
  assert (E1 : s_pt s0 = start_pt data /\ s_warns s0 = Some [] /\ s_errs s0 = []) by (subst s0; auto).
  clearbody s0. destruct E1 as (E1 & E2 & E3). cbn [s_pt s_warns] in R.
  apply inv_evs_cons in R as (r2 & R & K).
  destruct r2 as [v2 en2 s2|en2 s2|m2 x2 s2|].
  2: { subst r1 r. cbn in P. inversion P. }
  2: { subst r1 r. cbn in P. destruct (k_recover (config_of o1)); inversion P. }
  2: { subst r1 r. cbn in P. inversion P. }
  apply inv_evs_nil in K. subst r1.
  assert (G0 : in_g gen_grammar init_conf).
  { assert (G := in_g_rule gen_grammar gen_lits_ok "init" _ find_init). rewrite gen_init_eq in G. destruct G as [G1 G2].
    split; [reflexivity|]. intros x Hx. apply G2. cbn [acts]. right. cbn [flat_map]. rewrite app_nil_r. exact Hx. }
  pose proof (proj1 (hid_all o data Ho Henc (T (o_ignore o) data) (spell_inv (o_ignore o) data)) _ _ _ _ _ R G0 conf_no_ret) as A.
  rewrite E1 in A. specialize (A (reach_start data)).
  subst r. unfold act_out in P. cbn [run_action] in P. unfold act_ret_config in P. cbn in P.
  injection P as Pc Pe _. symmetry in Pe. destruct (A Pe) as [B _]. specialize (B eq_refl) as (hs & B & W).
  rewrite init_conf_eq in B. apply hi_lab in B as (-> & en3 & B). cbn [lookup bind String.eqb Ascii.eqb Bool.eqb] in Pc.
  assert (Ws : match s_warns s2 with Some l => map warning_text l | None => [] end = map warning_text (noted o hs)).
  { transitivity (map warning_text (warns_of s2)); [unfold warns_of; now destruct (s_warns s2)|]. f_equal. rewrite W. unfold warns_of. rewrite E2. reflexivity. }
  rewrite Ws in Pc. clear Ws W. rewrite Hig, E1 in B.
  apply hi_choice in B as [(_ & en4 & B)|B].
  - right. apply hi_act in B as (v0 & h0 & B & (en5 & Q) & _ & _ & St & Ev & ->). apply pi_act in Q as (v3 & Q & _). apply eof_end in Q.
    assert (Sg := seg_all _ _ St Q).
    apply hi_seq in B as (v4 & en6 & q1 & v5 & h1 & h2 & B1 & B2 & ->). apply hi_lab in B1 as (-> & en7 & B1).
    apply hi_ref in B1 as (_ & S1 & _ & B1). cbv [T invs find_inv String.eqb Ascii.eqb Bool.eqb] in B1.
    apply hi_seq in B2 as (v6 & en8 & q2 & v7 & h3 & h4 & B2 & B3 & ->). apply hi_seq0 in B3 as (-> & E4 & ->). subst q2.
    apply hi_not in B2 as (-> & E4 & ->). subst q1.
    destruct B1 as (c0 & ss & -> & F & [_ Sp] & N & I1 & I2 & I3). cbn [run_action lookup bind String.eqb Ascii.eqb Bool.eqb] in Ev. injection Ev as <-.
    subst c. cbn [cf_input cf_filter cf_output cf_foot cf_warnings].
    exists ss, h1. split; [exact N|]. split; [exact F|]. split; [exact I1|]. split; [exact I2|]. split; [exact I3|]. rewrite start_off, Sg in Sp. split; [exact Sp|].
    cbn [app]. rewrite app_nil_r. unfold noted. rewrite Hw. destruct (k_warn (config_of opts)); reflexivity.
  - left. apply hi_choice in B as [(_ & en4 & B)|B]; [|now apply hi_choice0 in B].
    assert (Hn := proj1 (nohid_all _ _ _ _) _ _ _ _ _ _ _ B eq_refl). subst hs.
    apply hi_act in B as (v0 & h0 & B & (en5 & Q) & _ & _ & St & Ev & _). apply pi_act in Q as (v3 & Q & _). assert (Q0 := Q). apply eof_end in Q0.
    assert (Sg := seg_all _ _ St Q0). cbn [run_action lookup bind String.eqb Ascii.eqb Bool.eqb] in Ev. injection Ev as <-. rewrite noted_nil in Pc.
    split; [|exact Pc]. apply pi_seq in Q as (v1 & en6 & q1 & l1 & Q & Q1 & _). apply pi_seq in Q1 as (v4 & en7 & q2 & l2 & Q1 & Q2 & _). apply pi_seq0 in Q2 as (_ & _ & E4).
    apply pi_not in Q1 as (_ & E5 & _). subst q2. subst q1. apply peg_gap in Q as (_ & Q & _). rewrite Sg, Q0 in Q. exact Q.
Qed.
