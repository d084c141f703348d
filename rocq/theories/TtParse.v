(** Parse and grammar.treetop. *)
From Coq Require Import List NArith ZArith Bool String Arith Lia.
From Verif Require Import Bytes Utf8 F64 Ast Peg Actions Engine Parser GrammarGen PosFacts Run EngineFacts Matches
  Termination Sim RunInv HistFacts ParseFacts Utf8Facts InputFacts LimitFacts PegSem PegFacts LexFacts Tree Sound Rules SoundLex SoundRules ParseTree AppFacts ErrFacts.
From Verif Require Import Treetop TreetopGen TtMap TtLaws TtRules.
Import ListNotations.

(** ** Derivations *)
Lemma peg_edited ign e en p r : peg ign gen_grammar e en p r -> lits_ok e = true -> says edited (er phi e) p r.
Proof.
  intros H L. apply (peg_tm phi ign gen_grammar gen_lits_ok edited every every_app rules_le e en p r H L). exact I.
Qed.
Lemma not_any g s r : tm g (TNot TAny) s (Some r) -> s = [] /\ r = [].
Proof. intros H. inversion H; subst. match goal with K : tm _ TAny _ None |- _ => inversion K; subst end. auto. Qed.
Lemma config_says s r : tm edited (phi "config") s (Some r) -> tm edited (TRef "config") s (Some []) /\ r = [].
Proof.
  intros H. change (phi "config") with (TSeq [TRef "config"; TNot TAny]) in H. inversion H; subst.
  match goal with K : tm _ (TSeq [_]) _ _ |- _ => inversion K; subst end. match goal with K : tm _ (TSeq []) _ _ |- _ => inversion K; subst end.
  match goal with K : tm _ (TNot TAny) _ _ |- _ => apply not_any in K as [-> ->] end. auto.
Qed.
Lemma config_says_no s : tm edited (phi "config") s None -> ~ tm edited (TRef "config") s (Some []).
Proof.
  intros H K. change (phi "config") with (TSeq [TRef "config"; TNot TAny]) in H.
  assert (X : tm edited (TSeq [TRef "config"; TNot TAny]) s (Some [])) by (eapply tm_seq; [exact K|]; eapply tm_seq; [apply tm_not_none; constructor|apply tm_seq_end]).
  pose proof (tm_fun _ _ _ _ H _ X). discriminate.
Qed.

Definition has_section (c : config) : Prop := (cf_input c ++ cf_filter c ++ cf_output c)%list <> [].

Lemma config_loop_count com vs : forall first i f o i' f' o', config_loop com first vs i f o = inl (i', f', o') ->
  List.length i' + List.length f' + List.length o' = List.length i + List.length f + List.length o + List.length vs.
Proof.
  induction vs as [|v vs IH]; intros first i f o i' f' o' E; cbn [config_loop] in E; [inversion E; cbn; lia|].
  destruct v; try discriminate E. destruct (ps_type _); try discriminate E; apply IH in E; rewrite app_length in E; cbn in *; lia.
Qed.
Lemma config_has_section ign en p v en' q : peg ign gen_grammar config_e en p (POk v en' q) -> exists c, v = VConfig c /\ has_section c.
Proof.
  intros H. apply pi_act in H as (v0 & H & E).
  apply pi_seq in H as (v1 & en1 & q1 & l1 & H1 & H & _). apply pi_lab in H1 as (-> & _).
  apply pi_seq in H as (v2 & en2 & q2 & l2 & H2 & H & _). apply pi_lab in H2 as (-> & en2' & H2).
  apply pi_seq in H as (v3 & en3 & q3 & l3 & H3 & H & _). apply pi_lab in H3 as (-> & _).
  apply pi_seq in H as (v4 & en4 & q4 & l4 & H4 & H & _). apply pi_lab in H4 as (-> & _).
  apply pi_seq in H as (v5 & en5 & q5 & l5 & H5 & H & _). apply pi_not in H5 as (-> & -> & _). apply pi_seq0 in H as (_ & -> & ->).
  cbv [run_action lookup bind String.eqb Ascii.eqb Bool.eqb] in E.
  assert (S : exists s, v2 = VSection s).
  { rewrite rules_are_generated in H2. apply (peg_ref_ok _ _ _ pluginSection_e) in H2 as (en6 & H2); [|reflexivity].
    apply pi_act in H2 as (v6 & _ & E2). cbn [run_action] in E2. unfold act_plugin_section, conv_panic in E2.
    destruct (lookup "pt" en6); try discriminate E2. destruct (all_some _ _); inversion E2. eauto. }
  destruct S as (sec & ->). unfold act_config in E. cbn [iface_slice app] in E.
  destruct (config_loop _ _ _ _ _ _) as [[[i f] o]|] eqn:L; [|discriminate E]. inversion E; subst. eexists. split; [reflexivity|].
  apply config_loop_count in L. unfold has_section. cbn [cf_input cf_filter cf_output]. intros X.
  assert (Y : List.length (i ++ f ++ o)%list = 0) by now rewrite X. rewrite !app_length in Y. cbn [List.length] in L. lia.
Qed.

(** The first alternative of the entry point succeeds exactly on the texts of the
    edited grammar. *)
Lemma gen_init_is : gen_init = init_e.
Proof. pose proof find_init as F. rewrite rules_are_generated in F. inversion F. reflexivity. Qed.
Lemma init_ok ign data v en q : peg ign gen_grammar gen_init [] (start_pt data) (POk v en q) ->
  exists c, v = VConfig c /\ (taccepts edited data <-> has_section c).
Proof.
  rewrite gen_init_is. intros H. apply pi_act in H as (v0 & H & HA). apply pi_seq in H as (v1 & en1 & q1 & l1 & H1 & H & _).
  apply pi_seq in H as (v2 & en2 & q2 & l2 & H2 & H & _). apply pi_seq in H as (v3 & en3 & q3 & l3 & H3 & H & _). apply pi_seq0 in H as (_ & -> & ->).
  apply pi_state in H1 as (-> & ->). assert (E2 : en2 = [] /\ q2 = start_pt data).
  { inversion H2; subst; auto. }
  destruct E2 as [-> ->]. apply pi_lab in H3 as (-> & en4 & H3).
  apply pi_choice in H3 as [(_ & en5 & H3)|[HN H3]].
  - apply pi_act in H3 as (v4 & H3 & E3). apply pi_seq in H3 as (v5 & en6 & q5 & l5 & H5 & H3 & _). apply pi_seq in H3 as (v6 & en7 & q6 & l6 & H6 & H3 & _).
    apply pi_seq0 in H3 as (_ & -> & ->). apply pi_not in H6 as (-> & -> & _). apply pi_lab in H5 as (-> & en8 & H5).
    pose proof (peg_edited _ _ _ _ _ H5 eq_refl) as T. cbn [says er] in T. apply config_says in T as [T _]. rewrite start_rest in T.
    rewrite rules_are_generated in H5. apply (peg_ref_ok _ _ _ config_e) in H5 as (en9 & H5); [|reflexivity]. rewrite <- rules_are_generated in H5.
    apply config_has_section in H5 as (c & -> & Hc). cbn in E3. inversion E3; subst v3. cbn in HA. inversion HA; subst v.
    eexists. split; [reflexivity|]. split; [intros _; exact Hc|intros _; exact T].
  - apply pi_choice in H3 as [(_ & en5 & H3)|[_ H3]]; [|now apply pi_choice0 in H3]. apply pi_act in H3 as (v4 & _ & E3). cbn in E3. inversion E3; subst v3.
    cbn in HA. inversion HA; subst v. eexists. split; [reflexivity|].
    pose proof (peg_edited _ _ _ _ _ HN eq_refl) as T. cbn [says er map] in T. rewrite start_rest in T. split.
    + intros K. exfalso. assert (X : tm edited (TSeq [phi "config"; TNot TAny]) (chars data) (Some [])).
      { eapply tm_seq; [eapply tm_seq; [exact K|]; eapply tm_seq; [apply tm_not_none; constructor|apply tm_seq_end]|]. eapply tm_seq; [apply tm_not_none; constructor|apply tm_seq_end]. }
      pose proof (tm_fun _ _ _ _ T _ X) as Y. discriminate Y.
    + intros K. exfalso. apply K. reflexivity.
Qed.
Lemma init_no ign data : peg ign gen_grammar gen_init [] (start_pt data) PFail -> ~ taccepts edited data.
Proof.
  intros H K. assert (L : lits_ok gen_init = true) by exact (forallb_rule "init" gen_init gen_lits_ok find_init).
  pose proof (peg_edited _ _ _ _ _ H L) as T. cbn [says] in T. rewrite start_rest in T.
  assert (X : tm edited (phi "init") (chars data) None) by (apply (rules_le "init" gen_init find_init); [exact I|exact T]).
  assert (Y : tm edited (phi "init") (chars data) (Some [])).
  { change (phi "init") with (TAlt [TSeq [TRef "config"; TNot TAny; TNot TAny]; TSeq [TRef "_"; TNot TAny]]). apply tm_alt.
    eapply tm_seq; [exact K|]. eapply tm_seq; [apply tm_not_none; constructor|]. eapply tm_seq; [apply tm_not_none; constructor|apply tm_seq_end]. }
  pose proof (tm_fun _ _ _ _ X _ Y) as Z. discriminate Z.
Qed.

(** ** Parse *)
Theorem parse_edited opts ff data c ff' :
  k_entry (config_of opts) = "init"%string -> parse opts ff data = (Returned (VConfig c) [], ff') ->
  (taccepts edited data <-> has_section c).
Proof.
  intros He E. destruct (parse_any_peg opts ff data c ff' He E) as (c0 & en & q & P & D).
  destruct (init_ok _ _ _ _ _ P) as (c1 & E1 & K). inversion E1; subst c1. unfold drop_warnings in D. inversion D as [[D1 D2 D3 D4]].
  unfold has_section in *. rewrite <- D1, <- D2, <- D3. exact K.
Qed.

(** Errors without a rule: the text does not match the grammar. *)
Lemma parse_outcome opts ff data :
  k_entry (config_of opts) = "init"%string -> k_max (config_of opts) = 0%N -> k_warn (config_of opts) = false ->
  utf8_text data \/ k_invalid (config_of opts) = true ->
  exists r, peg (k_ignore (config_of opts)) gen_grammar gen_init [] (start_pt data) r /\
    match r with
    | PFail => exists e, fst (parse opts ff data) = Returned VNil [e] /\ e_rule e = None
    | PAbort => forall v errs, fst (parse opts ff data) = Returned v errs -> errs <> [] /\ forall e, In e errs -> e_msg e = MText (b "invalid encoding") \/ exists r, e_rule e = Some r
    | POk v _ _ => fst (parse opts ff data) = Returned v []
    end.
Proof.
  intros He Hm Hw Hu. destruct (parse_final opts ff data gen_init) as (r & R & -> & [I Q]); [rewrite He; exact find_init|].
  set (o := settings_of (config_of opts)) in *. rewrite He in R.
  assert (KI : forall s e, inv gen_grammar data (fun f => In f ff) s -> In e (s_errs s) -> e_msg e = MText (b "invalid encoding") \/ exists r, e_rule e = Some r).
  { intros s e [A _ _ _] Hf. rewrite Forall_forall in A. destruct (A e Hf) as (_ & _ & A3). destruct (e_rule e); [right; eauto|left; auto]. }
  assert (Ho : o_max o = None) by (subst o; cbn; now rewrite Hm).
  assert (Henc := enc_ok o data Hu).
  assert (Hi : init_st o ff data = St (start_pt data) zero_pos [] None ff [] (Pos 1 1 0) [] false 0).
  { unfold init_st. apply (check_same o data Henc). constructor. }
  rewrite Hi in R. apply init_run in R as [[K _]|[_ (r1 & R & ->)]].
  { unfold over_limit in K. rewrite Ho in K. discriminate. }
  set (s0 := started o _) in R.
  assert (E0 : s_pt s0 = start_pt data /\ s_warns s0 = Some [] /\ s_errs s0 = []) by (subst s0; auto).
  clearbody s0. destruct E0 as (E1 & E2 & E3). cbn [s_pt s_warns] in R.
  apply inv_evs_cons in R as (r2 & R & K).
  assert (A : agree (peg (o_ignore o) gen_grammar init_conf [] (start_pt data)) s0 r2).
  { rewrite <- E1. apply (proj1 (ev_peg_all o gen_grammar data gen_lits_ok Ho Hw Henc) _ _ _ _ _ R).
    - reflexivity.
    - rewrite E1. constructor.
    - exact E2. }
  change (o_ignore o) with (k_ignore (config_of opts)) in A.
  assert (Pre : forall x, pegs (k_ignore (config_of opts)) gen_grammar [init_conf] [] (start_pt data) x -> x = PFail \/ x = PAbort ->
    peg (k_ignore (config_of opts)) gen_grammar gen_init [] (start_pt data) x).
  { intros x Hx Hd. rewrite gen_init_eq. eapply peg_act_no; [|exact Hd]. eapply peg_seq_no; [|exact Hd].
    eapply pegs_later; [apply peg_state| |exact Hd]. eapply pegs_later; [apply peg_init|exact Hx|exact Hd]. }
  destruct r2 as [v2 en2 s2|en2 s2|m2 x2 s2|]; cbn [agree] in A.
  - apply inv_evs_nil in K. subst r1. destruct A as (W & X & [[A1 A2]|[A1 A2]]).
    + unfold act_out. cbn [s_warns set_cur]. rewrite W. cbn [run_action act_ret_config].
      eexists. split.
      * rewrite gen_init_eq. eapply peg_act; [|reflexivity]. apply peg_seq. eapply pegs_cons; [apply peg_state|].
        eapply pegs_cons; [apply peg_init|]. eapply pegs_cons; [exact A2|]. apply pegs_nil.
      * cbn. f_equal. rewrite A1. exact E3.
    + exists PAbort. split; [apply Pre; auto; eapply pegs_no; eauto|].
      intros v errs Ef. cbn in I, Ef. unfold act_out in Ef, I. cbn [run_action] in Ef, I. unfold act_ret_config in Ef, I. cbn in Ef, I. inversion Ef; subst. split; [intros Z; apply A1; unfold same; congruence|intros e Hin; eapply KI; eauto].
  - subst r1. destruct A as (W & X & A). destruct A as [[A1 A2]|[A1 A2]].
    + exists PFail. split; [apply Pre; auto; eapply pegs_no; eauto|]. 
      assert (Es : s_errs s2 = []) by (unfold same in A1; congruence).
      assert (Er : s_errs (restore (start_pt data) (set_warns None s2)) = []) by (rewrite <- Es; unfold restore; cbn [s_pt set_warns]; destruct (Nat.eqb _ _); reflexivity).
      cbn [act_out finish fst]. rewrite Er. eexists. split; reflexivity.
    + exists PAbort. split; [apply Pre; auto; eapply pegs_no; eauto|].
      assert (Er : s_errs (restore (start_pt data) (set_warns None s2)) = s_errs s2) by (unfold restore; cbn [s_pt set_warns]; destruct (Nat.eqb _ _); reflexivity).
      intros v errs Ef. cbn [act_out finish fst] in Ef. rewrite Er in Ef.
      destruct (s_errs s2) as [|e0 l] eqn:Es; [exfalso; apply A1; unfold same; congruence|].
      inversion Ef; subst. split; [discriminate|]. intros e Hin. eapply (KI _ e I). cbn [act_out s_errs]. rewrite Er. exact Hin.
  - subst r1. exists PAbort. split; [apply Pre; auto; eapply pegs_no; eauto|].
    intros v errs Ef. cbn in I, Ef. destruct (k_recover _); [|discriminate]. inversion Ef; subst. split; [intros Z; now apply app_eq_nil in Z|]. intros e Hin. apply in_app_iff in Hin as [Hin|[<-|[]]]; [|right; eexists; reflexivity].
    eapply (KI _ e I). exact Hin.
  - contradiction.
Qed.

(** With warnings on or off *)
Lemma parse_outcome_any opts ff data :
  k_entry (config_of opts) = "init"%string -> k_max (config_of opts) = 0%N ->
  utf8_text data \/ k_invalid (config_of opts) = true ->
  exists r, peg (k_ignore (config_of opts)) gen_grammar gen_init [] (start_pt data) r /\
    match r with
    | PFail => exists e, fst (parse opts ff data) = Returned VNil [e] /\ e_rule e = None
    | PAbort => forall v errs, fst (parse opts ff data) = Returned v errs -> errs <> [] /\ forall e, In e errs -> e_msg e = MText (b "invalid encoding") \/ exists r, e_rule e = Some r
    | POk _ _ _ => exists c, fst (parse opts ff data) = Returned (VConfig c) []
    end.
Proof.
  intros He Hm Hu. set (o2 := (opts ++ [OptExceptionalCommentsWarning false])%list).
  assert (K : config_of o2 = PCfg (k_max (config_of opts)) (k_entry (config_of opts)) (k_invalid (config_of opts)) (k_recover (config_of opts)) (k_ignore (config_of opts)) false).
  { unfold o2, config_of. rewrite fold_left_app. reflexivity. }
  destruct (parse_warn opts o2 ff data) as [A _]; try (rewrite K; reflexivity); [exact He|rewrite K; exact He|].
  destruct (parse_outcome o2 ff data) as (r & R & X); [rewrite K; exact He|rewrite K; exact Hm|now rewrite K|now rewrite K|]. rewrite K in R. cbn [k_ignore] in R.
  exists r. split; [exact R|]. destruct r as [v en q| |].
  - rewrite X in A. destruct (init_ok _ _ _ _ _ R) as (c & -> & _). destruct (fst (parse opts ff data)) as [v l| |]; try discriminate A. cbn in A. destruct v; inversion A; subst. eauto.
  - destruct X as (e & X & Y). rewrite X in A. destruct (fst (parse opts ff data)) as [v l| |]; try discriminate A. cbn in A. destruct v; inversion A; subst. eauto.
  - intros v errs E. rewrite E in A. destruct (fst (parse o2 ff data)) as [v2 l2| |]; try discriminate A. cbn in A. inversion A; subst. eapply X; eauto.
Qed.

Theorem parse_in_language opts ff data v errs ff' :
  k_entry (config_of opts) = "init"%string -> k_max (config_of opts) = 0%N ->
  utf8_text data \/ k_invalid (config_of opts) = true ->
  parse opts ff data = (Returned v errs, ff') ->
  taccepts edited data \/ tm edited (TSeq [TRef "_"; TNot TAny]) (chars data) (Some []) ->
  (errs = [] /\ exists c, v = VConfig c) \/ (errs <> [] /\ forall e, In e errs -> e_msg e = MText (b "invalid encoding") \/ exists r, e_rule e = Some r).
Proof.
  intros He Hm Hu E T. destruct (parse_outcome_any opts ff data He Hm Hu) as (r & R & X). rewrite E in X. cbn [fst] in X.
  destruct r as [v0 en q| |].
  - left. destruct X as (c & X). inversion X; subst. eauto.
  - exfalso. destruct T as [T|T]; [exact (init_no _ _ R T)|].
    assert (L : lits_ok gen_init = true) by exact (forallb_rule "init" gen_init gen_lits_ok find_init).
    pose proof (peg_edited _ _ _ _ _ R L) as Tm. cbn [says] in Tm. rewrite start_rest in Tm.
    assert (Xn : tm edited (phi "init") (chars data) None) by (apply (rules_le "init" gen_init find_init); [exact I|exact Tm]).
    change (phi "init") with (TAlt [TSeq [TRef "config"; TNot TAny; TNot TAny]; TSeq [TRef "_"; TNot TAny]]) in Xn.
    inversion Xn; subst. match goal with K : tm _ (TAlt [_]) _ _ |- _ => inversion K; subst end.
    match goal with K : tm _ (TSeq [TRef "_"; TNot TAny]) _ None |- _ => pose proof (tm_fun _ _ _ _ T _ K) as Z; discriminate Z end.
  - right. eapply X; eauto.
Qed.
