(** From the outcome of Parse, with any options, to a derivation of PegSem.v and to
    the invariants of SoundRules.v. *)
From Coq Require Import List NArith ZArith Bool String Arith Lia.
From Verif Require Import Bytes Utf8 F64 Ast Peg Actions Engine Parser GrammarGen PosFacts Run EngineFacts Matches
  Termination Sim RunInv HistFacts ParseFacts Utf8Facts InputFacts LimitFacts PegSem PegFacts LexFacts Tree Sound Rules SoundLex SoundRules.
Import ListNotations.

Lemma cfg_parse opts opts' ff data : config_of opts = config_of opts' -> parse opts ff data = parse opts' ff data.
Proof. intros E. unfold parse. now rewrite E. Qed.

Lemma parse_unlimited opts ff data c ff' : parse opts ff data = (Returned (VConfig c) [], ff') ->
  parse (with_limit 0 opts) ff data = (Returned (VConfig c) [], ff').
Proof.
  intros E. destruct (N.eq_0_gt_0_cases (k_max (config_of opts))) as [K|K].
  - rewrite <- E. apply cfg_parse. rewrite with_limit_cfg. destruct (config_of opts). cbn in *. now subst.
  - assert (E0 : parse (with_limit (k_max (config_of opts)) opts) ff data = (Returned (VConfig c) [], ff')).
    { rewrite <- E. apply cfg_parse. rewrite with_limit_cfg. now destruct (config_of opts). }
    destruct (parse_limit _ opts ff data K) as [A B]. destruct (N.le_gt_cases (expressions opts ff data) (k_max (config_of opts))) as [L|L].
    + now rewrite <- (A L).
    + destruct (B L) as (errs & p & rule & ff2 & X). rewrite E0 in X. destruct (k_recover (config_of opts)); inversion X.
Qed.

(** Any successful parse, whatever the options, is a derivation. *)
Lemma parse_any_peg opts ff data c ff' :
  k_entry (config_of opts) = "init"%string -> parse opts ff data = (Returned (VConfig c) [], ff') ->
  exists c0 en q, peg (k_ignore (config_of opts)) gen_grammar gen_init [] (start_pt data) (POk (VConfig c0) en q) /\
    drop_warnings c0 = drop_warnings c.
Proof.
  intros He E. apply parse_unlimited in E. set (o1 := with_limit 0 opts) in *.
  set (o2 := o1 ++ [OptExceptionalCommentsWarning false]).
  assert (K1 : config_of o1 = PCfg 0 (k_entry (config_of opts)) (k_invalid (config_of opts)) (k_recover (config_of opts)) (k_ignore (config_of opts)) (k_warn (config_of opts))) by apply with_limit_cfg.
  assert (K : config_of o2 = PCfg 0 (k_entry (config_of opts)) (k_invalid (config_of opts)) (k_recover (config_of opts)) (k_ignore (config_of opts)) false).
  { unfold o2, config_of. rewrite fold_left_app. fold (config_of o1). rewrite K1. reflexivity. }
  destruct (parse_warn o1 o2 ff data) as [A B]; try (rewrite K1, K; reflexivity); try (rewrite ?K1, ?K; exact He).
  rewrite E in A, B. cbn in A, B. destruct (parse o2 ff data) as [r ff2] eqn:E2. cbn in A, B. subst ff2.
  destruct r as [v l| |]; try discriminate A. cbn in A. inversion A; subst. destruct v; try discriminate. 
  assert (U : utf8_text data \/ k_invalid (config_of o2) = true).
  { destruct (k_invalid (config_of o2)) eqn:I; [now right|left]. eapply parse_utf8; [|exact I|exact E2]. rewrite K. exact He. }
  destruct (parse_peg o2 ff data) as (r & R & X); try (rewrite K; first [exact He|reflexivity]); [exact U|].
  rewrite E2 in X. cbn in X. destruct r as [v en q| |]; [|exfalso; eapply X; reflexivity..].
  inversion X; subst. rewrite K in R. cbn [k_ignore] in R. eexists _, en, q. split; [exact R|]. cbn in H0. congruence.
Qed.

Lemma peg_init_end ign data v en q : peg ign gen_grammar gen_init [] (start_pt data) (POk v en q) ->
  p_off (pt_pos q) = List.length data.
Proof.
  intros H. assert (L : lits_ok gen_init = true) by exact (forallb_rule "init" gen_init gen_lits_ok find_init).
  pose proof (peg_steps _ _ gen_lits_ok _ _ _ _ _ _ H L) as St.
  assert (R : Reach data q) by (eapply steps_reach; [constructor|exact St]).
  assert (E : pt_rest q = []).
  { assert (Gi : gen_init = init_e).
    { pose proof find_init as F. rewrite rules_are_generated in F. inversion F. reflexivity. }
    rewrite Gi in H. apply pi_act in H as (v0 & H & _). apply pi_seq in H as (v1 & en1 & q1 & l1 & H1 & H & _).
    apply pi_seq in H as (v2 & en2 & q2 & l2 & H2 & H & _). apply pi_seq in H as (v3 & en3 & q3 & l3 & H3 & H & _). apply pi_seq0 in H as (_ & _ & ->).
    apply pi_lab in H3 as (_ & en4 & H3).
    assert (Z : forall es e p v en en', peg ign gen_grammar (ESeq [e; eof_e]) en p (POk v en' q3) -> es = [e] -> pt_rest q3 = []).
    { clear. intros es e p v en en' H _. apply pi_seq in H as (v1 & en1 & q1 & l1 & H1 & H & _).
      apply pi_seq in H as (v2 & en2 & q2 & l2 & H2 & H & _). apply pi_seq0 in H as (_ & _ & ->). apply pi_not in H2 as (_ & -> & H2).
      inversion H2; subst; try discriminate; assumption. }
    apply pi_choice in H3 as [(_ & en5 & H3)|[_ H3]]; [|apply pi_choice in H3 as [(_ & en5 & H3)|[_ H3]]; [|now apply pi_choice0 in H3]];
      apply pi_act in H3 as (v4 & H3 & _); exact (Z _ _ _ _ _ _ H3 eq_refl). }
  pose proof (reach_len _ _ R) as Ln. pose proof (reach_rest _ _ R) as Rr. rewrite E in Rr.
  assert (List.length (skipn (p_off (pt_pos q)) data) = 0) by now rewrite <- Rr. rewrite skipn_length in *. lia.
Qed.

Theorem parse_tree opts ff data c ff' :
  k_entry (config_of opts) = "init"%string -> parse opts ff data = (Returned (VConfig c) [], ff') ->
  wf_config c /\ exists ss, covered data 0 ss (List.length data) /\
    cf_input c = of_type PTInput ss /\ cf_filter c = of_type PTFilter ss /\ cf_output c = of_type PTOutput ss.
Proof.
  intros He E. destruct (parse_any_peg _ _ _ _ _ He E) as (c0 & en & q & H & D).
  assert (R : Reach data (start_pt data)) by constructor.
  pose proof (peg_tree _ _ _ _ _ _ _ find_init H R) as (c1 & ss & E1 & W & C & I1 & I2 & I3). inversion E1; subst c1.
  rewrite (peg_init_end _ _ _ _ _ H) in C. unfold drop_warnings in D. inversion D as [[D1 D2 D3 D4]].
  split; [unfold wf_config in *; now rewrite D1, D2, D3, D4 in W|]. exists ss. split; [now rewrite start_off in C|]. split; [congruence|]. split; congruence.
Qed.
Lemma parse_items opts ff data c ff' :
  k_entry (config_of opts) = "init"%string -> parse opts ff data = (Returned (VConfig c) [], ff') ->
  exists ss, laid data 0 (flat_map items_section ss) (List.length data) /\ incl (items_config c) (flat_map items_section ss).
Proof.
  intros He E. destruct (parse_tree _ _ _ _ _ He E) as (_ & ss & C & E1 & E2 & E3). exists ss. split; [exact (covered_items _ _ _ _ C)|].
  unfold items_config, sections. intros z Hz. apply in_flat_map in Hz as (s & Hs & Hz). apply in_flat_map. exists s. split; [|exact Hz].
  rewrite E1, E2, E3 in Hs. apply of_types_in; [exact (covered_types _ _ _ _ C)|exact Hs].
Qed.
