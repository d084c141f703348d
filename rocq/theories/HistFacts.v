(** Consequences of the simulation: the history of earlier parses and the
    option ExceptionalCommentsWarning. *)
From Coq Require Import List NArith Bool String Arith Lia.
From Verif Require Import Bytes Utf8 F64 Ast Peg Actions Engine Parser GrammarGen PosFacts Run EngineFacts Termination RunInv Sim.
Import ListNotations.

(** State after the two blocks at the start of rule init *)
Definition started (o : settings) (s : st) : st :=
  set_ff [] (tick (run_state o SInitState (tick (tick (tick s))))).

Lemma tick_over o s : over_limit o (tick s) = false -> over_limit o s = false.
Proof. unfold over_limit. cbn. destruct (o_max o); auto. rewrite !N.ltb_ge. lia. Qed.

Lemma init_run o s r : ev o gen_grammar "init" gen_init [] s r ->
  (over_limit o (tick (tick (tick (tick s)))) = true /\
    exists s', r = OPanic max_expr_msg "init" s' /\ s_ff s' = s_ff s /\ s_errs s' = s_errs s /\ s_pt s' = s_pt s) \/
  (over_limit o (tick (tick (tick (tick s)))) = false /\
    exists r1, evs o gen_grammar "init" (s_pt s) (s_warns s) [init_conf] [VNil; VNil] [] (started o s) r1 /\
    r = act_out o "init" (ARetConfig "conf") (tick s) r1).
Proof.
  assert (T : forall s, over_limit o s = true -> over_limit o (tick s) = true).
  { intros s0. pose proof (tick_over o s0). destruct (over_limit o (tick s0)); auto. intros E. specialize (H eq_refl). congruence. }
  rewrite gen_init_eq. intros H.
  apply inv_act in H as [[L ->]|[L (r1 & H & ->)]].
  { left. split; [auto|]. eexists; split; [reflexivity|auto]. }
  apply inv_seq in H as [[L1 ->]|[L1 H]].
  { left. split; [auto|]. eexists; split; [reflexivity|auto]. }
  apply inv_evs_cons in H as (r2 & H2 & H).
  eapply inv_prim in H2; [|reflexivity]. destruct H2 as [[L2 ->]|[L2 ->]].
  { left. split; [auto|]. subst r1. eexists; split; [reflexivity|auto]. }
  apply inv_evs_cons in H as (r3 & H3 & H).
  eapply inv_prim in H3; [|reflexivity].
  assert (Ec : over_limit o (tick (tick (tick (tick s)))) = over_limit o (tick (run_state o SInitState (tick (tick (tick s)))))).
  { unfold over_limit. cbn. destruct (o_max o); [|reflexivity]. destruct (s_warns s); reflexivity. }
  destruct H3 as [[L3 ->]|[L3 ->]].
  - left. split; [rewrite Ec; exact L3|]. subst r1. eexists; split; [reflexivity|]. cbn.
    destruct (s_warns s); auto.
  - right. split; [rewrite Ec; exact L3|]. exists r1. split; [exact H|reflexivity].
Qed.

Lemma evs_init o s r1 : over_limit o (tick (tick (tick (tick s)))) = false ->
  evs o gen_grammar "init" (s_pt s) (s_warns s) [init_conf] [VNil; VNil] [] (started o s) r1 ->
  ev o gen_grammar "init" gen_init [] s (act_out o "init" (ARetConfig "conf") (tick s) r1).
Proof.
  intros L H. pose proof (tick_over _ _ L) as L2. pose proof (tick_over _ _ L2) as L1. pose proof (tick_over _ _ L1) as L0.
  rewrite gen_init_eq. apply ev_act; [exact L0|]. apply ev_seq; [exact L1|].
  assert (Ec : over_limit o (tick (tick (tick (tick s)))) = over_limit o (tick (run_state o SInitState (tick (tick (tick s)))))).
  { unfold over_limit. cbn. destruct (o_max o); [|reflexivity]. destruct (s_warns s); reflexivity. }
  eapply evs_ok; [apply ev_prim; [exact L2|reflexivity]|].
  eapply evs_ok; [apply ev_prim; [|reflexivity]; rewrite <- Ec; exact L|]. exact H.
Qed.

(** ** History *)

Definition same_but_ff (s s' : st) : Prop := s' = set_ff (s_ff s') s.

Lemma init_st_ff o ff ff' data : init_st o ff' data = set_ff ff' (init_st o ff data).
Proof. unfold init_st, check_rune. cbn. destruct (_ && _); reflexivity. Qed.

Lemma Forall2_eq {A} (l l' : list A) : Forall2 eq l l' -> l = l'.
Proof. induction 1; congruence. Qed.
Lemma simerr_eq e e' : simerr eq e e' -> e = e'.
Proof. destruct e, e'. intros (H1 & H2 & H3). cbn in *. congruence. Qed.
Lemma simerrs_eq l l' : Forall2 (simerr eq) l l' -> l = l'.
Proof. induction 1; [reflexivity|]. f_equal; auto using simerr_eq. Qed.
Lemma simresult_eq r r' : simresult eq eq r r' -> r = r'.
Proof.
  destruct r, r'; cbn; try tauto; try congruence. intros [-> H]. f_equal. now apply simerrs_eq.
Qed.

Lemma simenv_eq_action ign a en en' w p t : simenv eq en en' -> run_action ign w a en p t = run_action ign w a en' p t.
Proof. intros H. unfold simenv in H. destruct a; cbn; rewrite ?H; reflexivity. Qed.
Lemma simres_refl r : simres eq eq r r.
Proof. destruct r; cbn; auto. Qed.

Lemma parse_history_result opts ff ff' data : fst (parse opts ff data) = fst (parse opts ff' data).
Proof.
  apply simresult_eq.
  apply (parse_sim opts opts ff ff' data eq eq (fun _ _ => True) eq (fun _ => true) (fun _ => true)); auto; try congruence.
  - intros; apply okx_all.
  - intros l l' H. f_equal. now apply Forall2_eq.
  - intros l v' <-. exists l. split; auto. clear; induction l; auto.
  - intros v l' ->. eauto.
  - intros a en en' w w' p t _ H <-. rewrite (simenv_eq_action _ _ _ _ _ _ _ H). apply simres_refl.
Qed.

Definition resets_record (k : pcfg) : bool := (k_max k =? 0)%N || (4 <=? k_max k)%N.

Lemma over_init k ff data n : (n <= 4)%N -> resets_record k = true ->
  over_limit (settings_of k) (set_cnt n (init_st (settings_of k) ff data)) = false.
Proof.
  unfold resets_record, over_limit, settings_of. cbn. intros Hn H.
  destruct (N.eqb_spec (k_max k) 0); [reflexivity|]. cbn in H. apply N.leb_le in H. apply N.ltb_ge. lia.
Qed.
Lemma init_cnt o ff data : s_cnt (init_st o ff data) = 0%N.
Proof. unfold init_st, check_rune. cbn. destruct (_ && _); reflexivity. Qed.
Lemma init_warn o ff data : s_warns (init_st o ff data) = None.
Proof. unfold init_st, check_rune. cbn. destruct (_ && _); reflexivity. Qed.
Lemma init_ff o ff data : s_ff (init_st o ff data) = ff.
Proof. unfold init_st, check_rune. cbn. destruct (_ && _); reflexivity. Qed.

Lemma tick4_init o ff data :
  tick (tick (tick (tick (init_st o ff data)))) = set_cnt 4 (init_st o ff data).
Proof. unfold tick. cbn. now rewrite init_cnt. Qed.

Lemma parse_history opts ff ff' data :
  k_entry (config_of opts) = "init"%string -> resets_record (config_of opts) = true ->
  parse opts ff data = parse opts ff' data.
Proof.
  intros He Hm. pose proof (parse_run opts ff data) as P. pose proof (parse_run opts ff' data) as P'.
  rewrite He, find_init in P, P'. destruct P as (r & R & ->), P' as (r' & R' & ->).
  set (o := settings_of (config_of opts)) in *.
  pose proof (over_init (config_of opts) ff data 4 ltac:(lia) Hm) as L. fold o in L. rewrite <- tick4_init in L.
  pose proof (over_init (config_of opts) ff' data 4 ltac:(lia) Hm) as L'. fold o in L'. rewrite <- tick4_init in L'.
  apply init_run in R as [[K _]|[_ (r1 & R & ->)]]; [congruence|].
  apply init_run in R' as [[K _]|[_ (r1' & R' & ->)]]; [congruence|].
  rewrite (init_st_ff o ff ff') in R'. cbn in R'.
  replace (started o (set_ff ff' (init_st o ff data))) with (started o (init_st o ff data)) in R'.
  2: { unfold started. cbn. destruct (s_warns (init_st o ff data)); reflexivity. }
  assert (E : r1 = r1').
  { pose proof (evs_init o _ _ L R) as A. 
    assert (B : ev o gen_grammar "init" (ESeq [EStateCode SInitState; EAndCode PInitParser; init_conf]) [] (tick (init_st o ff data)) r1).
    { apply ev_seq; [exact (tick_over _ _ (tick_over _ _ L))|].
      eapply evs_ok; [apply ev_prim; [exact (tick_over _ _ L)|reflexivity]|].
      eapply evs_ok; [apply ev_prim; [|reflexivity]|].
      - rewrite init_cnt in L || idtac. unfold over_limit in *. cbn in *. rewrite init_warn. exact L.
      - exact R. }
    assert (C : ev o gen_grammar "init" (ESeq [EStateCode SInitState; EAndCode PInitParser; init_conf]) [] (tick (init_st o ff data)) r1').
    { apply ev_seq; [exact (tick_over _ _ (tick_over _ _ L))|].
      eapply evs_ok; [apply ev_prim; [exact (tick_over _ _ L)|reflexivity]|].
      eapply evs_ok; [apply ev_prim; [|reflexivity]|].
      - unfold over_limit in *. cbn in *. rewrite init_warn. exact L.
      - exact R'. }
    eapply ev_fun; eauto. }
  subst r1'. rewrite (init_st_ff o ff ff').
  destruct r1 as [v en s1|en s1|m x s1|]; cbn; try reflexivity.
  apply (proj1 (proj2 (ev_not_fuel o gen_grammar))) in R. congruence.
Qed.

(** With a limit below 4 the parse stops before the reset. *)
Lemma parse_tiny_limit opts ff data :
  k_entry (config_of opts) = "init"%string -> resets_record (config_of opts) = false ->
  k_recover (config_of opts) = true ->
  exists errs p, parse opts ff data = (Returned VNil (errs ++ [PError p (Some "init"%string) max_expr_msg]), ff).
Proof.
  intros He Hm Hr. pose proof (parse_run opts ff data) as P.
  rewrite He, find_init in P. destruct P as (r & R & ->).
  apply init_run in R as [[_ (s' & -> & E1 & E2 & E3)]|[L _]].
  - cbn. rewrite Hr, E1, E2, E3, init_ff. eauto.
  - exfalso. rewrite tick4_init in L. unfold resets_record in Hm. apply orb_false_iff in Hm as [M1 M2].
    unfold over_limit, settings_of in L. cbn in L. rewrite M1 in L. cbn in L. apply N.ltb_ge in L. apply N.leb_gt in M2. lia.
Qed.

(** ** ExceptionalCommentsWarning *)

Definition not_ret_config (a : action) : bool := match a with ARetConfig _ => false | _ => true end.
Definition not_init (n : string) : bool := negb (String.eqb n "init").

Lemma gen_no_ret : forallb (fun x => implb (not_init (fst x)) (okx not_ret_config not_init (snd x))) gen_grammar = true.
Proof. vm_compute. reflexivity. Qed.
Lemma gen_no_ret_rule n e : not_init n = true -> find_rule n gen_grammar = Some e -> okx not_ret_config not_init e = true.
Proof.
  intros H F. pose proof (forallb_rule n e gen_no_ret F) as K. cbn [fst snd] in K. now rewrite H in K.
Qed.
Lemma conf_no_ret : okx not_ret_config not_init init_conf = true.
Proof. vm_compute. reflexivity. Qed.

(** Actions other than retConfig do not look at the warnings. *)
Lemma action_warns ign a en w w' p t : not_ret_config a = true ->
  run_action ign w a en p t = run_action ign w' a en p t.
Proof. destruct a; try discriminate; reflexivity. Qed.

Definition drop_warnings (c : config) : config := Config (cf_input c) (cf_filter c) (cf_output c) (cf_foot c) [].
Definition drop_warnings_v (v : val) : val := match v with VConfig c => VConfig (drop_warnings c) | v => v end.
Definition drop_warnings_r (r : result) : result :=
  match r with Returned v l => Returned (drop_warnings_v v) l | x => x end.

Section Warn.
  Variables o o' : settings.
  Hypothesis Hmax : o_max o = o_max o'.
  Hypothesis Hinv : o_invalid o = o_invalid o'.
  Hypothesis Hign : o_ignore o = o_ignore o'.
  Variable Rw : option (list position) -> option (list position) -> Prop.
  Hypothesis Rw_init : forall w w', Rw w w' -> Rw (init_warns w) (init_warns w').
  Hypothesis Rw_warn : forall p t w w', Rw w w' -> Rw (warn_step o p t w) (warn_step o' p t w').
  Hypothesis Rw_none : Rw None None.

  Lemma conf_warn_sim ff data r :
    ev o gen_grammar "init" gen_init [] (init_st o ff data) r ->
    exists r', ev o' gen_grammar "init" gen_init [] (init_st o' ff data) r' /\
    match r, r' with
    | OOk v en s, OOk v' en' s' => drop_warnings_v v = drop_warnings_v v' /\ simst Rw eq eq s s' /\
        (exists c, v = VConfig c /\ cf_warnings c = match s_warns s with Some l => map warning_text l | None => [] end) /\
        (exists c, v' = VConfig c /\ cf_warnings c = match s_warns s' with Some l => map warning_text l | None => [] end)
    | OFail en s, OFail en' s' => simst Rw eq eq s s'
    | OPanic m x s, OPanic m' x' s' => m = m' /\ x = x' /\ simst Rw eq eq s s'
    | OFuel, OFuel => True
    | _, _ => False
    end.
  Proof.
    intros R.
    assert (Ract : forall a en en' w w' p t, not_ret_config a = true -> simenv eq en en' -> Rw w w' ->
      simres eq eq (run_action (o_ignore o) w a en p t) (run_action (o_ignore o') w' a en' p t)).
    { intros a en en' w w' p t Ha H _. rewrite <- Hign, (simenv_eq_action _ _ _ _ _ _ _ H), (action_warns _ _ _ w w') by exact Ha.
      apply simres_refl. }
    assert (S0 : simst Rw eq eq (init_st o ff data) (init_st o' ff data)) by (apply init_sim; auto).
    assert (Rv_inv : forall l (v' : val), VList l = v' -> exists l', v' = VList l' /\ Forall2 eq l l').
    { intros l v' <-. exists l. split; auto. clear; induction l; auto. }
    assert (Rv_inv' : forall (v : val) l', v = VList l' -> exists l, v = VList l) by (intros; eauto).
    assert (Rv_l : forall l l' : list val, Forall2 eq l l' -> VList l = VList l') by (intros; f_equal; now apply Forall2_eq).
    assert (Rf_push : forall m s s', simst Rw eq eq s s' -> s_ff (push_error m s) = s_ff (push_error m s')).
    { intros m s s' H. unfold push_error, cur_off.
      rewrite (sim_cpos _ _ _ _ _ H), (sim_ctext _ _ _ _ _ H). pose proof (sim_ff _ _ _ _ _ H) as E. rewrite E.
      destruct (s_ff s') eqn:E'; [reflexivity|]. destruct (_ <? _); [reflexivity|].
      destruct (_ =? _); [|congruence]. destruct (existsb _ _); cbn; congruence. }
    assert (Ev : forall rule e en s r, ev o gen_grammar rule e en s r -> okx not_ret_config not_init e = true ->
       forall en' s', simenv eq en en' -> simst Rw eq eq s s' -> exists r', ev o' gen_grammar rule e en' s' r' /\ simout eq Rw eq eq r r').
    { intros rule e en s r0 H Ho en' s' He Hs.
      eapply (ev_sim o o' gen_grammar not_ret_config not_init gen_no_ret_rule Hmax Hinv eq Rw eq eq); eauto. }
    assert (Ec : over_limit o (tick (tick (tick (tick (init_st o ff data))))) =
                 over_limit o' (tick (tick (tick (tick (init_st o' ff data)))))).
    { rewrite !tick4_init. unfold over_limit. cbn. now rewrite Hmax. }
    destruct (over_limit o' (tick (tick (tick (tick (init_st o' ff data)))))) eqn:L'.
    - (* limit *)
      destruct (gen_rule_ev o' data "init" gen_init [] (init_st o' ff data) find_init) as [r' R'].
      { rewrite init_st_pt. constructor. }
      exists r'. split; [exact R'|].
      rewrite gen_init_eq in R, R'.
      apply inv_act in R as [[M ->]|[M (r1 & R & ->)]]; apply inv_act in R' as [[M' ->]|[M' (r1' & R' & ->)]].
      + split; [reflexivity|split; [reflexivity|now apply sim_tick]].
      + exfalso. unfold limit_ok in *. rewrite (sim_over o o' Hmax Rw eq eq _ _ S0) in *. congruence.
      + exfalso. unfold limit_ok in *. rewrite (sim_over o o' Hmax Rw eq eq _ _ S0) in *. congruence.
      + assert (S1 := sim_tick _ _ _ _ _ S0).
        apply inv_seq in R as [[N ->]|[N R]]; apply inv_seq in R' as [[N' ->]|[N' R']].
        * split; [reflexivity|split; [reflexivity|now apply sim_tick]].
        * exfalso. unfold limit_ok in *. rewrite (sim_over o o' Hmax Rw eq eq _ _ S1) in *. congruence.
        * exfalso. unfold limit_ok in *. rewrite (sim_over o o' Hmax Rw eq eq _ _ S1) in *. congruence.
        * assert (S2 := sim_tick _ _ _ _ _ S1).
          apply inv_evs_cons in R as (r2 & A & R). apply inv_evs_cons in R' as (r2' & A' & R').
          eapply inv_prim in A; [|reflexivity]. eapply inv_prim in A'; [|reflexivity].
          destruct A as [[O ->]|[O ->]]; destruct A' as [[O' ->]|[O' ->]].
          -- subst. split; [reflexivity|split; [reflexivity|now apply sim_tick]].
          -- exfalso. unfold limit_ok in *. rewrite (sim_over o o' Hmax Rw eq eq _ _ S2) in *. congruence.
          -- exfalso. unfold limit_ok in *. rewrite (sim_over o o' Hmax Rw eq eq _ _ S2) in *. congruence.
          -- apply inv_evs_cons in R as (r3 & A & R). apply inv_evs_cons in R' as (r3' & A' & R').
             eapply inv_prim in A; [|reflexivity]. eapply inv_prim in A'; [|reflexivity].
             assert (S3 : simst Rw eq eq (run_state o SInitState (tick (tick (tick (init_st o ff data)))))
                     (run_state o' SInitState (tick (tick (tick (init_st o' ff data)))))).
             { cbn. rewrite !init_warn. apply sim_set_warns; [exact (Rw_init _ _ Rw_none)|]. now apply sim_tick. }
             destruct A as [[Q ->]|[Q ->]]; destruct A' as [[Q' ->]|[Q' ->]].
             ++ subst. split; [reflexivity|split; [reflexivity|now apply sim_tick]].
             ++ exfalso. unfold limit_ok in *. rewrite (sim_over o o' Hmax Rw eq eq _ _ S3) in *. congruence.
             ++ exfalso. unfold limit_ok in *. rewrite (sim_over o o' Hmax Rw eq eq _ _ S3) in *. congruence.
             ++ exfalso. unfold limit_ok, over_limit in Q', L'. cbn in Q', L'. rewrite init_warn in Q'. cbn in Q'. congruence.
    - apply init_run in R as [[K _]|[_ (r1 & R & ->)]]; [congruence|].
      apply inv_evs_cons in R as (r2 & A & R).
      assert (S3 : simst Rw eq eq (started o (init_st o ff data)) (started o' (init_st o' ff data))).
      { unfold started. apply sim_set_ff; [reflexivity|]. apply sim_tick. cbn. rewrite !init_warn.
        apply sim_set_warns; [exact (Rw_init _ _ Rw_none)|]. now repeat apply sim_tick. }
      destruct (Ev _ _ _ _ _ A conf_no_ret [] _ (fun l => eq_refl) S3) as (r2' & A' & S4).
      destruct r2 as [v2 en2 s2|en2 s2|m2 x2 s2|], r2' as [v3 en3 s3|en3 s3|m3 x3 s3|]; cbn in S4; try tauto.
      + apply inv_evs_nil in R. subst r1.
        eexists. split; [apply evs_init; [exact L'|eapply evs_ok; [exact A'|apply evs_nil]]|].
        destruct S4 as (_ & S4 & S5). unfold simenv in S4. cbn [act_out run_action act_ret_config].
        rewrite (S4 "conf"%string).
        split; [reflexivity|]. split; [|split; eexists; (split; [reflexivity|]); reflexivity].
        assert (Ep : s_pt (tick (init_st o ff data)) = s_pt (tick (init_st o' ff data))).
        { cbn. apply (sim_pt _ _ _ _ _ S0). }
        rewrite Ep, (sim_slice _ _ _ _ _ _ S5). now apply sim_set_cur.
      + subst r1. eexists. split; [apply evs_init; [exact L'|apply evs_fail; exact A']|].
        cbn [act_out]. rewrite (sim_pt _ _ _ _ _ S0). apply sim_restore, sim_set_warns; [|tauto].
        apply (sim_warns _ _ _ _ _ S0).
      + subst r1. eexists. split; [apply evs_init; [exact L'|apply evs_panic; exact A']|]. exact S4.
      + apply (proj1 (ev_not_fuel _ _)) in A. congruence.
  Qed.
End Warn.

Lemma parse_warn opts opts' ff data :
  k_entry (config_of opts) = "init"%string -> k_entry (config_of opts') = "init"%string ->
  k_max (config_of opts) = k_max (config_of opts') ->
  k_invalid (config_of opts) = k_invalid (config_of opts') ->
  k_recover (config_of opts) = k_recover (config_of opts') ->
  k_ignore (config_of opts) = k_ignore (config_of opts') ->
  drop_warnings_r (fst (parse opts ff data)) = drop_warnings_r (fst (parse opts' ff data)) /\
  snd (parse opts ff data) = snd (parse opts' ff data).
Proof.
  intros He He' Hm Hi Hr Hg. pose proof (parse_run opts ff data) as P. pose proof (parse_run opts' ff data) as P'.
  rewrite He, find_init in P. rewrite He', find_init in P'. destruct P as (r & R & ->), P' as (r' & R' & ->).
  destruct (conf_warn_sim (settings_of (config_of opts)) (settings_of (config_of opts'))
    ltac:(cbn; now rewrite Hm) Hi Hg (fun _ _ => True) ltac:(auto) ltac:(auto) I ff data r R) as (r2 & R2 & S).
  rewrite (ev_fun _ _ _ _ _ _ _ _ R' R2). clear R' r'.
  destruct r as [v en s|en s|m x s|], r2 as [v2 en2 s2|en2 s2|m2 x2 s2|]; try tauto; cbn.
  - destruct S as (S1 & S2 & _). rewrite S1, (simerrs_eq _ _ (sim_errs _ _ _ _ _ S2)). split; [reflexivity|].
    apply (sim_ff _ _ _ _ _ S2).
  - rewrite (simerrs_eq _ _ (sim_errs _ _ _ _ _ S)), (sim_mfpos _ _ _ _ _ S), (sim_mfexp _ _ _ _ _ S).
    split; [reflexivity|]. apply (sim_ff _ _ _ _ _ S).
  - destruct S as (-> & -> & S). rewrite (simerrs_eq _ _ (sim_errs _ _ _ _ _ S)), (sim_pt _ _ _ _ _ S), Hr.
    split; [|apply (sim_ff _ _ _ _ _ S)]. destruct (k_recover _); reflexivity.
Qed.

Lemma parse_no_warnings opts ff data c errs ff' :
  k_entry (config_of opts) = "init"%string -> k_warn (config_of opts) = false ->
  parse opts ff data = (Returned (VConfig c) errs, ff') -> cf_warnings c = [].
Proof.
  intros He Hw. pose proof (parse_run opts ff data) as P. rewrite He, find_init in P. destruct P as (r & R & ->).
  set (o := settings_of (config_of opts)) in *.
  destruct (conf_warn_sim o o eq_refl eq_refl eq_refl (fun w w' => w = w' /\ (w = None \/ w = Some []))
    ltac:(intros w w' [<- [->| ->]]; cbn; auto) ltac:(intros p t w w' H; unfold warn_step; cbn; now rewrite Hw)
    (conj eq_refl (or_introl eq_refl)) ff data r R) as (r2 & R2 & S).
  destruct r as [v en s|en s|m x s|], r2 as [v2 en2 s2|en2 s2|m2 x2 s2|]; try tauto; cbn; try discriminate.
  - destruct S as (_ & S & (c1 & -> & E) & _). intros H. assert (c1 = c) by congruence. subst c1. rewrite E.
    destruct (sim_warns _ _ _ _ _ S) as [_ [-> | ->]]; reflexivity.
  - destruct (k_recover _); discriminate.
Qed.
