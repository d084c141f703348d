(** Simulation between two runs of the parser over the same grammar: related
    values, warnings, failure records and error messages stay related. *)
From Coq Require Import List NArith Bool String Arith Lia.
From Verif Require Import Bytes Utf8 F64 Ast Peg Actions Engine GrammarGen Parser Run EngineFacts Termination.
Import ListNotations.

Definition init_warns (w : option (list position)) : option (list position) :=
  match w with Some _ => w | None => Some [] end.
Definition warn_step (o : settings) (p : position) (t : bytes) (w : option (list position)) :=
  if o_warn o && existsb (N.eqb HASH) t
  then Some (match w with Some l => l | None => [] end ++ [p]) else w.

(** All actions of an expression satisfy [ok], all rules it refers to [okr]. *)
Fixpoint okx (ok : action -> bool) (okr : string -> bool) (e : expr) : bool :=
  match e with
  | EAct a e => ok a && okx ok okr e
  | ELab _ e | ENot e | EPlus e | EStar e | EOpt e => okx ok okr e
  | EChoice l | ESeq l => forallb (okx ok okr) l
  | ERef n => okr n
  | _ => true
  end.
Lemma okx_all e : okx (fun _ => true) (fun _ => true) e = true.
Proof.
  revert e. fix IH 1. intros []; cbn; auto.
  - induction l; cbn; auto. now rewrite IH.
  - induction l; cbn; auto. now rewrite IH.
Qed.

Section Sim.
  Variables o o' : settings.
  Variable g : grammar.
  Variable ok : action -> bool.
  Variable okr : string -> bool.
  Hypothesis Hok : forall n e, okr n = true -> find_rule n g = Some e -> okx ok okr e = true.
  Hypothesis Hmax : o_max o = o_max o'.
  Hypothesis Hinv : o_invalid o = o_invalid o'.
  Variable Rv : val -> val -> Prop.
  Variable Rw : option (list position) -> option (list position) -> Prop.
  Variable Rf : list failure -> list failure -> Prop.
  Variable Rm : emsg -> emsg -> Prop.

  Definition simerr (e e' : perror) : Prop :=
    e_pos e = e_pos e' /\ e_rule e = e_rule e' /\ Rm (e_msg e) (e_msg e').
  Record simst (s s' : st) : Prop := SimSt
    { sim_pt : s_pt s = s_pt s'; sim_cpos : s_cpos s = s_cpos s'; sim_ctext : s_ctext s = s_ctext s';
      sim_warns : Rw (s_warns s) (s_warns s'); sim_ff : Rf (s_ff s) (s_ff s');
      sim_errs : Forall2 simerr (s_errs s) (s_errs s');
      sim_mfpos : s_mfpos s = s_mfpos s'; sim_mfexp : s_mfexp s = s_mfexp s'; sim_mfinv : s_mfinv s = s_mfinv s';
      sim_cnt : s_cnt s = s_cnt s' }.
  Definition simenv (en en' : env) : Prop := forall l, Rv (lookup l en) (lookup l en').
  Definition simout (r r' : out) : Prop :=
    match r, r' with
    | OOk v en s, OOk v' en' s' => Rv v v' /\ simenv en en' /\ simst s s'
    | OFail en s, OFail en' s' => simenv en en' /\ simst s s'
    | OPanic m x s, OPanic m' x' s' => Rm m m' /\ x = x' /\ simst s s'
    | OFuel, OFuel => True
    | _, _ => False
    end.
  Definition simres (r r' : ares) : Prop :=
    match r, r' with
    | RVal v, RVal v' => Rv v v'
    | RErr v m, RErr v' m' => Rv v v' /\ Rm m m'
    | RPanic m, RPanic m' => Rm m m'
    | _, _ => False
    end.

  Hypothesis Rv_nil : Rv VNil VNil.
  Hypothesis Rv_bytes : forall t, Rv (VBytes t) (VBytes t).
  Hypothesis Rv_list : forall l l', Forall2 Rv l l' -> Rv (VList l) (VList l').
  Hypothesis Rv_list_inv : forall l v', Rv (VList l) v' -> exists l', v' = VList l' /\ Forall2 Rv l l'.
  Hypothesis Rv_list_inv' : forall v l', Rv v (VList l') -> exists l, v = VList l.
  Hypothesis Rw_init : forall w w', Rw w w' -> Rw (init_warns w) (init_warns w').
  Hypothesis Rw_warn : forall p t w w', Rw w w' -> Rw (warn_step o p t w) (warn_step o' p t w').
  Hypothesis Rf_nil : Rf [] [].
  Hypothesis Rf_one : forall x, Rf [x] [x].
  Hypothesis Rf_push : forall m s s', simst s s' -> Rf (s_ff (push_error m s)) (s_ff (push_error m s')).
  Hypothesis Rm_text : forall t, Rm (MText t) (MText t).
  Hypothesis Ract : forall a en en' w w' p t, ok a = true -> simenv en en' -> Rw w w' ->
    simres (run_action (o_ignore o) w a en p t) (run_action (o_ignore o') w' a en' p t).

  Lemma simenv_nil : simenv [] [].
  Proof. intros l. exact Rv_nil. Qed.
  Lemma simenv_bind l v v' en en' : Rv v v' -> simenv en en' -> simenv (bind l v en) (bind l v' en').
  Proof. intros Hv He k. cbn. destruct (String.eqb l k); auto. Qed.

  Lemma sim_set_pt p s s' : simst s s' -> simst (set_pt p s) (set_pt p s').
  Proof. intros []. constructor; auto. Qed.
  Lemma sim_set_cur p t s s' : simst s s' -> simst (set_cur p t s) (set_cur p t s').
  Proof. intros []. constructor; auto. Qed.
  Lemma sim_set_warns w w' s s' : Rw w w' -> simst s s' -> simst (set_warns w s) (set_warns w' s').
  Proof. intros H []. constructor; auto. Qed.
  Lemma sim_set_ff w w' s s' : Rf w w' -> simst s s' -> simst (set_ff w s) (set_ff w' s').
  Proof. intros H []. constructor; auto. Qed.
  Lemma sim_set_mfinv i s s' : simst s s' -> simst (set_mfinv i s) (set_mfinv i s').
  Proof. intros []. constructor; auto. Qed.
  Lemma sim_tick s s' : simst s s' -> simst (tick s) (tick s').
  Proof. intros []. constructor; auto. cbn. congruence. Qed.
  Lemma sim_add_err rule m m' p s s' : Rm m m' -> simst s s' -> simst (add_err_at rule m p s) (add_err_at rule m' p s').
  Proof. intros Hm []. constructor; auto. cbn. apply Forall2_app; auto. constructor; auto. repeat split; auto. Qed.
  Lemma sim_over s s' : simst s s' -> over_limit o (tick s) = over_limit o' (tick s').
  Proof. intros []. unfold over_limit. cbn. now rewrite Hmax, sim_cnt0. Qed.
  Lemma sim_restore p s s' : simst s s' -> simst (restore p s) (restore p s').
  Proof. intros H. unfold restore. rewrite (sim_pt _ _ H). destruct (_ =? _); auto using sim_set_pt. Qed.
  Lemma sim_read rule s s' : simst s s' -> simst (read o rule s) (read o' rule s').
  Proof.
    intros H. unfold read, check_rune. rewrite (sim_pt _ _ H), Hinv. cbn.
    destruct (_ && _); auto using sim_set_pt, sim_add_err.
  Qed.
  Lemma sim_fail_at x p w s s' : simst s s' -> simst (fail_at x p w s) (fail_at x p w s').
  Proof.
    intros H. unfold fail_at. rewrite (sim_mfinv _ _ H), (sim_mfpos _ _ H), (sim_mfexp _ _ H).
    destruct (Bool.eqb _ _); auto. destruct (_ <? _); auto. destruct H. destruct (_ <? _); constructor; cbn; auto; congruence.
  Qed.
  Lemma sim_push m s s' : simst s s' -> simst (push_error m s) (push_error m s').
  Proof.
    intros H. pose proof (Rf_push m _ _ H) as K.
    assert (E : forall s, push_error m s = set_ff (s_ff (push_error m s)) s).
    { clear. intros s. unfold push_error. destruct (s_ff s) eqn:E; [reflexivity|].
      destruct (_ <? _); [reflexivity|]. destruct (_ =? _); [|rewrite E; destruct s; cbn in *; now subst].
      destruct (existsb _ _); [rewrite E; destruct s; cbn in *; now subst|]. reflexivity. }
    rewrite (E s), (E s'). now apply sim_set_ff.
  Qed.
  Lemma sim_slice p s s' : simst s s' -> slice_from p s = slice_from p s'.
  Proof. intros H. unfold slice_from. now rewrite (sim_pt _ _ H). Qed.
  Lemma sim_eof s s' : simst s s' -> at_eof s = at_eof s'.
  Proof. intros H. unfold at_eof. now rewrite (sim_pt _ _ H). Qed.

  Lemma sim_lit rule want p rs en en' : simenv en en' -> forall s s', simst s s' ->
    simout (lit_loop o rule want p rs en s) (lit_loop o' rule want p rs en' s').
  Proof.
    intros He. induction rs as [|r rs IH]; intros s s' H; cbn [lit_loop].
    - cbn. assert (K := sim_fail_at true (pt_pos p) want _ _ H).
      rewrite (sim_slice _ _ _ K). auto.
    - rewrite (sim_pt _ _ H). destruct (_ =? _)%N.
      + apply IH. now apply sim_read.
      + cbn. auto using sim_restore, sim_fail_at.
  Qed.
  Lemma sim_prim rule e en en' s s' r : simenv en en' -> simst s s' ->
    prim_out o g rule e en s = Some r -> exists r', prim_out o' g rule e en' s' = Some r' /\ simout r r'.
  Proof.
    intros He H. destruct e; cbn [prim_out]; try discriminate; intros E; try (injection E as <-).
    - eexists; split; [reflexivity|]. destruct p; cbn -[push_error].
      + auto using sim_set_ff.
      + auto using sim_push.
      + unfold cur_off. rewrite (sim_cpos _ _ H), (sim_ctext _ _ H). repeat split; auto using sim_set_ff.
        all: apply sim_set_ff; auto.
    - eexists; split; [reflexivity|]. cbn. split; [auto|]. split; [auto|].
      assert (K1 := Rw_init _ _ (sim_warns _ _ H)).
      assert (K2 := Rw_warn (s_cpos s) (s_ctext s) _ _ (sim_warns _ _ H)).
      destruct c; cbn.
      + unfold init_warns in K1. destruct (s_warns s) eqn:E1, (s_warns s') eqn:E2; cbn in *;
          try (apply sim_set_warns; auto; fail); auto.
        * destruct H. constructor; cbn; auto. now rewrite E1.
        * destruct H. constructor; cbn; auto. now rewrite E2.
      + rewrite <- (sim_cpos _ _ H), <- (sim_ctext _ _ H). unfold warn_step in K2.
        destruct (o_warn o && _), (o_warn o' && _); destruct H; constructor; cbn; auto.
    - eexists; split; [reflexivity|]. rewrite (sim_eof _ _ H), (sim_pt _ _ H). destruct (at_eof s').
      + cbn. auto using sim_fail_at.
      + assert (K := sim_fail_at true (pt_pos (s_pt s')) "." _ _ (sim_read (Some rule) _ _ H)).
        cbn. rewrite (sim_slice _ _ _ K). auto.
    - eexists; split; [reflexivity|]. rewrite (sim_eof _ _ H), (sim_pt _ _ H). destruct (_ && _).
      + assert (K := sim_fail_at true (pt_pos (s_pt s')) val _ _ (sim_read (Some rule) _ _ H)).
        cbn. rewrite (sim_slice _ _ _ K). auto.
      + cbn. auto using sim_fail_at.
    - eexists; split; [reflexivity|]. rewrite (sim_pt _ _ H). now apply sim_lit.
    - destruct (find_rule name g); [discriminate|]. injection E as <-. eexists; split; [reflexivity|].
      rewrite (sim_pt _ _ H). cbn. auto using sim_add_err.
  Qed.

  Lemma sim_all :
    (forall rule e en s r, ev o g rule e en s r -> okx ok okr e = true -> forall en' s', simenv en en' -> simst s s' ->
       exists r', ev o' g rule e en' s' r' /\ simout r r') /\
    (forall rule pt w es acc en s r, evs o g rule pt w es acc en s r -> forallb (okx ok okr) es = true -> forall w' acc' en' s',
       Rw w w' -> Forall2 Rv acc acc' -> simenv en en' -> simst s s' ->
       exists r', evs o' g rule pt w' es acc' en' s' r' /\ simout r r') /\
    (forall rule es en s r, evc o g rule es en s r -> forallb (okx ok okr) es = true -> forall en' s', simenv en en' -> simst s s' ->
       exists r', evc o' g rule es en' s' r' /\ simout r r') /\
    (forall rule e acc en s r, evt o g rule e acc en s r -> okx ok okr e = true -> forall acc' en' s',
       Forall2 Rv acc acc' -> simenv en en' -> simst s s' ->
       exists r', evt o' g rule e acc' en' s' r' /\ simout r r').
  Proof.
    Local Ltac over H L := match goal with
      | |- _ => rewrite (sim_over _ _ H) in L end.
    apply ev_mutind.
    - intros rule e en s L Ho en' s' He H. over H L. eexists; split; [now apply ev_limit|].
      cbn. split; [apply Rm_text|]. split; [reflexivity|]. now apply sim_tick.
    - intros rule e en s r L P Ho en' s' He H. over H L.
      destruct (sim_prim _ _ _ _ _ _ _ He (sim_tick _ _ H) P) as (r' & P' & S).
      exists r'. split; [now apply ev_prim|exact S].
    - intros rule a e en s r L _ IH Ho en' s' He H. over H L. cbn in Ho. apply andb_true_iff in Ho as [Ho1 Ho].
      destruct (IH Ho en' (tick s') He (sim_tick _ _ H)) as (r' & E & S).
      eexists; split; [apply ev_act; [exact L|exact E]|].
      destruct r as [v1 en1 s1|en1 s1|m1 x1 s1|], r' as [v2 en2 s2|en2 s2|m2 x2 s2|]; cbn in S; try tauto; try exact S.
      destruct S as (S1 & S2 & S3). cbn [act_out s_warns set_cur].
      assert (Ep : s_pt (tick s) = s_pt (tick s')) by (cbn; apply sim_pt; exact H).
      rewrite <- Ep. rewrite <- (sim_slice (s_pt (tick s)) _ _ S3).
      assert (K := Ract a _ _ _ _ (pt_pos (s_pt (tick s))) (slice_from (s_pt (tick s)) s1) Ho1 S2 (sim_warns _ _ S3)).
      assert (S4 := sim_set_cur (pt_pos (s_pt (tick s))) (slice_from (s_pt (tick s)) s1) _ _ S3).
      destruct (run_action (o_ignore o) _ _ _ _ _), (run_action (o_ignore o') _ _ _ _ _); cbn in K; try tauto; cbn [simout].
      + auto.
      + destruct K. repeat split; auto using sim_add_err; now apply sim_add_err.
      + auto.
    - intros rule l e en s r L _ IH Ho en' s' He H. over H L.
      destruct (IH Ho [] (tick s') simenv_nil (sim_tick _ _ H)) as (r' & E & S).
      eexists; split; [apply ev_lab; [exact L|exact E]|].
      destruct r, r'; cbn in S |- *; try tauto. destruct S as (S1 & S2 & S3). auto using simenv_bind.
    - intros rule e en s r L _ IH Ho en' s' He H. over H L.
      assert (Ei : s_mfinv (tick s) = s_mfinv (tick s')) by (cbn; apply sim_mfinv; exact H).
      rewrite Ei in IH.
      destruct (IH Ho [] _ simenv_nil (sim_set_mfinv (negb (s_mfinv (tick s'))) _ _ (sim_tick _ _ H))) as (r' & E & S).
      eexists; split; [apply ev_not; [exact L|exact E]|].
      destruct r as [v1 en1 s1|en1 s1|m1 x1 s1|], r' as [v2 en2 s2|en2 s2|m2 x2 s2|]; cbn in S; try tauto; unfold not_out.
      + destruct S as (S1 & S2 & S3). cbn [simout]. split; [auto|].
        assert (Ep : s_pt (tick s) = s_pt (tick s')) by (cbn; apply sim_pt; exact H). rewrite Ep, (sim_mfinv _ _ S3).
        apply sim_restore, sim_set_warns; [cbn; apply sim_warns; exact H|now apply sim_set_mfinv].
      + destruct S as (S2 & S3). cbn [simout]. split; [auto|split; [auto|]].
        assert (Ep : s_pt (tick s) = s_pt (tick s')) by (cbn; apply sim_pt; exact H). rewrite Ep, (sim_mfinv _ _ S3).
        apply sim_restore, sim_set_warns; [cbn; apply sim_warns; exact H|now apply sim_set_mfinv].
      + exact S.
    - intros rule e en s r L _ IH Ho en' s' He H. over H L.
      destruct (IH Ho [] (tick s') simenv_nil (sim_tick _ _ H)) as (r' & E & S).
      eexists; split; [apply ev_opt; [exact L|exact E]|].
      destruct r, r'; cbn in S |- *; tauto.
    - intros rule name e en s r L F _ IH Ho en' s' He H. over H L. apply Hok in F as Ho2; [|exact Ho].
      destruct (IH Ho2 [] (tick s') simenv_nil (sim_tick _ _ H)) as (r' & E & S).
      eexists; split; [eapply ev_ref; [exact L|exact F|exact E]|].
      destruct r, r'; cbn in S |- *; tauto.
    - intros rule es en s r L _ IH Ho en' s' He H. over H L.
      destruct (IH Ho (s_warns s') [] en' (tick s') (sim_warns _ _ H) (Forall2_nil _) He (sim_tick _ _ H)) as (r' & E & S).
      exists r'. split; [|exact S]. apply ev_seq; [exact L|]. now rewrite <- (sim_pt _ _ H).
    - intros rule es en s r L _ IH Ho en' s' He H. over H L.
      destruct (IH Ho en' (tick s') He (sim_tick _ _ H)) as (r' & E & S). exists r'. split; [now apply ev_choice|exact S].
    - intros rule e en s r L _ IH Ho en' s' He H. over H L.
      destruct (IH Ho [] en' (tick s') (Forall2_nil _) He (sim_tick _ _ H)) as (r' & E & S).
      exists r'. split; [now apply ev_star|exact S].
    - intros rule e en s r L _ IH Ho en' s' He H. over H L.
      destruct (IH Ho [] en' (tick s') (Forall2_nil _) He (sim_tick _ _ H)) as (r' & E & S).
      exists (plus_out en' r'). split; [now apply ev_plus|].
      destruct r as [v1 en1 s1|en1 s1|m1 x1 s1|], r' as [v2 en2 s2|en2 s2|m2 x2 s2|]; cbn in S; try tauto; try exact S.
      destruct S as (S1 & S2 & S3).
      destruct v1 as [| |l1| | | | | | | | | | | | | | | | | | | | | | | ].
      3: { destruct (Rv_list_inv _ _ S1) as (l2 & -> & F2). destruct l1, l2; try (inversion F2; fail); cbn; auto. }
      all: destruct v2 as [| |l2| | | | | | | | | | | | | | | | | | | | | | | ]; try (cbn; tauto);
        destruct (Rv_list_inv' _ _ S1) as (? & K); discriminate K.
    - intros rule pt w acc en s Ho w' acc' en' s' Hw Ha He H. eexists; split; [apply evs_nil|].
      cbn. split; [|auto]. apply Rv_list. clear - Ha.
      induction Ha; cbn; [constructor|]. apply Forall2_app; auto.
    - intros rule pt w e es acc en s v en1 s1 r _ IH1 _ IH2 Ho w' acc' en' s' Hw Ha He H. cbn in Ho. apply andb_true_iff in Ho as [Ho1 Ho2].
      destruct (IH1 Ho1 _ _ He H) as (r1 & E1 & S1). destruct r1 as [v2 en2 s2|en2 s2|m2 x2 s2|]; cbn in S1; try tauto.
      destruct S1 as (S1 & S2 & S3).
      destruct (IH2 Ho2 w' (v2 :: acc') en2 s2 Hw (Forall2_cons _ _ S1 Ha) S2 S3) as (r' & E & S).
      exists r'. split; [eapply evs_ok; eauto|exact S].
    - intros rule pt w e es acc en s en1 s1 _ IH Ho w' acc' en' s' Hw Ha He H. cbn in Ho. apply andb_true_iff in Ho as [Ho1 Ho2].
      destruct (IH Ho1 _ _ He H) as (r1 & E1 & S1). destruct r1 as [v2 en2 s2|en2 s2|m2 x2 s2|]; cbn in S1; try tauto.
      eexists; split; [apply evs_fail; exact E1|]. cbn. destruct S1. split; [auto|].
      apply sim_restore. now apply sim_set_warns.
    - intros rule pt w e es acc en s m x s1 _ IH Ho w' acc' en' s' Hw Ha He H. cbn in Ho. apply andb_true_iff in Ho as [Ho1 Ho2].
      destruct (IH Ho1 _ _ He H) as (r1 & E1 & S1). destruct r1 as [v2 en2 s2|en2 s2|m2 x2 s2|]; cbn in S1; try tauto.
      eexists; split; [apply evs_panic; exact E1|exact S1].
    - intros rule en s Ho en' s' He H. eexists; split; [apply evc_nil|]. cbn. auto.
    - intros rule e es en s v en1 s1 _ IH Ho en' s' He H. cbn in Ho. apply andb_true_iff in Ho as [Ho1 Ho2].
      destruct (IH Ho1 _ _ simenv_nil H) as (r1 & E1 & S1). destruct r1 as [v2 en2 s2|en2 s2|m2 x2 s2|]; cbn in S1; try tauto.
      eexists; split; [eapply evc_ok; exact E1|]. cbn. tauto.
    - intros rule e es en s en1 s1 r _ IH1 _ IH2 Ho en' s' He H. cbn in Ho. apply andb_true_iff in Ho as [Ho1 Ho2].
      destruct (IH1 Ho1 _ _ simenv_nil H) as (r1 & E1 & S1). destruct r1 as [v2 en2 s2|en2 s2|m2 x2 s2|]; cbn in S1; try tauto.
      destruct S1 as (S1 & S2). destruct (IH2 Ho2 _ _ He (sim_set_warns _ _ _ _ (sim_warns _ _ H) S2)) as (r' & E & S).
      exists r'. split; [eapply evc_next; eauto|exact S].
    - intros rule e es en s m x s1 _ IH Ho en' s' He H. cbn in Ho. apply andb_true_iff in Ho as [Ho1 Ho2].
      destruct (IH Ho1 _ _ simenv_nil H) as (r1 & E1 & S1). destruct r1 as [v2 en2 s2|en2 s2|m2 x2 s2|]; cbn in S1; try tauto.
      eexists; split; [apply evc_panic; exact E1|exact S1].
    - intros rule e acc en s en1 s1 _ IH Ho acc' en' s' Ha He H. pose proof Ho as Ho1. pose proof Ho as Ho2.
      destruct (IH Ho1 _ _ simenv_nil H) as (r1 & E1 & S1). destruct r1 as [v2 en2 s2|en2 s2|m2 x2 s2|]; cbn in S1; try tauto.
      eexists; split; [eapply evt_stop; exact E1|]. cbn. destruct S1. split; [|auto].
      apply Rv_list. clear - Ha. induction Ha; cbn; [constructor|]. apply Forall2_app; auto.
    - intros rule e acc en s v en1 s1 r _ IH1 _ IH2 Ho acc' en' s' Ha He H. pose proof Ho as Ho1. pose proof Ho as Ho2.
      destruct (IH1 Ho1 _ _ simenv_nil H) as (r1 & E1 & S1). destruct r1 as [v2 en2 s2|en2 s2|m2 x2 s2|]; cbn in S1; try tauto.
      destruct S1 as (S1 & S2 & S3).
      destruct (IH2 Ho2 (v2 :: acc') en' s2 (Forall2_cons _ _ S1 Ha) He S3) as (r' & E & S).
      exists r'. split; [eapply evt_more; eauto|exact S].
    - intros rule e acc en s m x s1 _ IH Ho acc' en' s' Ha He H. pose proof Ho as Ho1. pose proof Ho as Ho2.
      destruct (IH Ho1 _ _ simenv_nil H) as (r1 & E1 & S1). destruct r1 as [v2 en2 s2|en2 s2|m2 x2 s2|]; cbn in S1; try tauto.
      eexists; split; [apply evt_panic; exact E1|exact S1].
  Qed.

  Theorem ev_sim rule e en s r en' s' : ev o g rule e en s r -> okx ok okr e = true ->
    simenv en en' -> simst s s' ->
    exists r', ev o' g rule e en' s' r' /\ simout r r'.
  Proof. intros H Ho. exact (proj1 sim_all _ _ _ _ _ H Ho en' s'). Qed.

  (** From the beginning of a parse *)
  Lemma init_sim ff ff' data : Rf ff ff' -> Rw None None ->
    simst (init_st o ff data) (init_st o' ff' data).
  Proof.
    intros H Hw. unfold init_st, check_rune. cbn [s_pt]. rewrite Hinv.
    assert (K : simst (St (start_pt data) zero_pos [] None ff [] (Pos 1 1 0) [] false 0)
                      (St (start_pt data) zero_pos [] None ff' [] (Pos 1 1 0) [] false 0)).
    { constructor; cbn; auto. }
    destruct (_ && _); [apply sim_add_err; auto|exact K].
  Qed.

  (** Related results of a parse *)
  Definition simresult (r r' : result) : Prop :=
    match r, r' with
    | Returned v l, Returned v' l' => Rv v v' /\ Forall2 simerr l l'
    | Panicked m, Panicked m' => Rm m m'
    | Diverged, Diverged => True
    | _, _ => False
    end.
  Lemma finish_sim k k' r r' ff ff' : k_recover k = k_recover k' -> simout r r' -> r <> OFuel ->
    simresult (fst (finish k r ff)) (fst (finish k' r' ff')) /\ Rf (snd (finish k r ff)) (snd (finish k' r' ff')).
  Proof.
    intros Hr H Hf. destruct r as [v1 en1 s1|en1 s1|m1 x1 s1|], r' as [v2 en2 s2|en2 s2|m2 x2 s2|]; cbn in H; try tauto; cbn.
    - destruct H as (H1 & H2 & H3). split; [split; [exact H1|now apply sim_errs]|now apply sim_ff].
    - destruct H as (H1 & H2). split; [|now apply sim_ff]. split; [exact Rv_nil|].
      pose proof (sim_errs _ _ H2) as F. rewrite (sim_mfpos _ _ H2), (sim_mfexp _ _ H2).
      destruct F; [|now constructor]. repeat constructor. apply Rm_text.
    - destruct H as (H1 & -> & H2). rewrite Hr, (sim_pt _ _ H2). split; [|now apply sim_ff].
      destruct (k_recover k'); cbn; [|exact H1]. split; [exact Rv_nil|].
      apply Forall2_app; [now apply sim_errs|]. constructor; [now repeat split|constructor].
  Qed.
End Sim.

(** Two parses with the same entry point: [okr] must allow it. *)
Lemma parse_sim opts opts' ff ff' data (Rv : val -> val -> Prop)
  (Rw : option (list position) -> option (list position) -> Prop) (Rf : list failure -> list failure -> Prop)
  (Rm : emsg -> emsg -> Prop) (ok : action -> bool) (okr : string -> bool)
  (o := settings_of (config_of opts)) (o' := settings_of (config_of opts')) :
  k_entry (config_of opts) = k_entry (config_of opts') ->
  k_max (config_of opts) = k_max (config_of opts') ->
  k_invalid (config_of opts) = k_invalid (config_of opts') ->
  k_recover (config_of opts) = k_recover (config_of opts') ->
  okr (k_entry (config_of opts)) = true ->
  (forall n e, okr n = true -> find_rule n gen_grammar = Some e -> okx ok okr e = true) ->
  Rv VNil VNil ->
  (forall t, Rv (VBytes t) (VBytes t)) ->
  (forall l l', Forall2 Rv l l' -> Rv (VList l) (VList l')) ->
  (forall l v', Rv (VList l) v' -> exists l', v' = VList l' /\ Forall2 Rv l l') ->
  (forall v l', Rv v (VList l') -> exists l, v = VList l) ->
  (forall w w', Rw w w' -> Rw (init_warns w) (init_warns w')) ->
  (forall p t w w', Rw w w' -> Rw (warn_step o p t w) (warn_step o' p t w')) ->
  Rf [] [] ->
  (forall x, Rf [x] [x]) ->
  (forall m s s', simst Rw Rf Rm s s' -> Rf (s_ff (push_error m s)) (s_ff (push_error m s'))) ->
  (forall t, Rm (MText t) (MText t)) ->
  (forall a en en' w w' p t, ok a = true -> simenv Rv en en' -> Rw w w' ->
    simres Rv Rm (run_action (o_ignore o) w a en p t) (run_action (o_ignore o') w' a en' p t)) ->
  Rf ff ff' -> Rw None None ->
  simresult Rv Rm (fst (parse opts ff data)) (fst (parse opts' ff' data)) /\
  Rf (snd (parse opts ff data)) (snd (parse opts' ff' data)).
Proof.
  intros E1 E2 E3 E4 Hen Hok H1 H2 H3 H4 H4' H5 H6 H7 H8 H9 H10 H11 Hff Hw.
  pose proof (parse_run opts ff data) as P. pose proof (parse_run opts' ff' data) as P'.
  rewrite <- E1 in P'. destruct (find_rule (k_entry (config_of opts)) gen_grammar) as [e|] eqn:F.
  2: { rewrite P, P'. cbn. repeat split; auto. repeat constructor. apply H10. }
  destruct P as (r & R & ->), P' as (r' & R' & ->). fold o in R. fold o' in R'.
  assert (Ho : o_max o = o_max o') by (subst o o'; cbn; now rewrite E2).
  assert (Hi : o_invalid o = o_invalid o') by exact E3.
  destruct (ev_sim o o' gen_grammar ok okr Hok Ho Hi Rv Rw Rf Rm H1 H2 H3 H4 H4' H5 H6 H7 H8 H9 H10 H11 _ _ _ _ _ []
    (init_st o' ff' data) R (Hok _ _ Hen F)) as (r2 & R2 & S).
  - intros l. exact H1.
  - apply init_sim; auto.
  - rewrite (ev_fun _ _ _ _ _ _ _ _ R' R2). eapply finish_sim; eauto.
    now apply (proj1 (ev_not_fuel _ _)) in R.
Qed.
