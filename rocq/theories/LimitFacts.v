(** The option MaxExpressions. *)
From Coq Require Import List NArith ZArith Bool String Arith Lia.
From Verif Require Import Bytes Utf8 F64 Ast Peg Actions Engine Parser GrammarGen QuoteFacts PosFacts Run EngineFacts
  Termination RunInv HistFacts ParseFacts.
Import ListNotations.

(** The counter of evaluated expressions at the end *)
Definition out_cnt (r : out) : N :=
  match r with OOk _ _ s | OFail _ s | OPanic _ _ s => s_cnt s | OFuel => 0 end.

Section Limit.
  Variables o o' : settings.
  Variable m : N.
  Hypothesis Ho : o_ignore o = o_ignore o' /\ o_warn o = o_warn o' /\ o_invalid o = o_invalid o'.
  Hypothesis Hn : o_max o = None.
  Hypothesis Hm : o_max o' = Some m.
  Variable g : grammar.

  Lemma no_over s : over_limit o s = false.
  Proof. unfold over_limit. now rewrite Hn. Qed.
  Lemma over_lim s : over_limit o' s = true <-> (m < s_cnt s)%N.
  Proof. unfold over_limit. rewrite Hm. apply N.ltb_lt. Qed.
  Lemma over_lim_f s : over_limit o' s = false <-> (s_cnt s <= m)%N.
  Proof. unfold over_limit. rewrite Hm. apply N.ltb_ge. Qed.

  Lemma cnt_mono_all :
    (forall rule e en s r, ev o g rule e en s r -> (s_cnt s < out_cnt r)%N) /\
    (forall rule pt w es acc en s r, evs o g rule pt w es acc en s r -> (s_cnt s <= out_cnt r)%N) /\
    (forall rule es en s r, evc o g rule es en s r -> (s_cnt s <= out_cnt r)%N) /\
    (forall rule e acc en s r, evt o g rule e acc en s r -> (s_cnt s <= out_cnt r)%N).
  Proof.
    assert (Fa : forall x p w s, s_cnt (fail_at x p w s) = s_cnt s).
    { intros. unfold fail_at. destruct (Bool.eqb _ _); auto. destruct (_ <? _); auto. now destruct (_ <? _). }
    assert (Re : forall p s, s_cnt (restore p s) = s_cnt s) by (intros; unfold restore; now destruct (_ =? _)).
    assert (Rd : forall rule s, s_cnt (read o rule s) = s_cnt s).
    { intros. unfold read, check_rune. now destruct (_ && _). }
    assert (Pe : forall t s, s_cnt (push_error t s) = s_cnt s).
    { intros. unfold push_error. destruct (s_ff s); auto. destruct (_ <? _); auto. destruct (_ =? _); auto. now destruct (existsb _ _). }
    apply ev_mutind; try (intros; cbn in *; lia).
    - intros rule e en s r _ P.
      enough (out_cnt r = s_cnt (tick s)) as -> by (cbn; lia).
      destruct e; cbn [prim_out] in P; try discriminate; try (injection P as <-).
      + destruct p; cbn; auto. now rewrite Pe.
      + destruct c; cbn; [now destruct (s_warns s)|now destruct (_ && _)].
      + destruct (at_eof _); unfold out_cnt; now rewrite Fa, ?Rd.
      + destruct (_ && _); unfold out_cnt; now rewrite Fa, ?Rd.
      + change (s_pt (tick s)) with (s_pt s); generalize (s_pt s); intros p; generalize (tick s); try clear R; induction runes as [|c rs IH]; intros s0; cbn [lit_loop].
        * unfold out_cnt. now rewrite Fa.
        * destruct (_ =? _)%N; [rewrite IH; apply Rd|]. unfold out_cnt. now rewrite Re, Fa.
      + destruct (find_rule name g); [discriminate|]. injection P as <-. reflexivity.
    - intros rule a e en s r _ _ IH. destruct r as [v en' s'|en' s'|m' x s'|]; cbn in *; try lia.
      destruct (run_action _ _ _ _ _ _); cbn; lia.
    - intros rule l e en s r _ _ IH. destruct r; cbn in *; lia.
    - intros rule e en s r _ _ IH. destruct r; unfold not_out, out_cnt in *; rewrite ?Re; cbn in *; lia.
    - intros rule e en s r _ _ IH. destruct r; cbn in *; lia.
    - intros rule name e en s r _ _ _ IH. destruct r; cbn in *; lia.
    - intros rule e en s r _ _ IH. destruct r as [v en' s'|en' s'|m' x s'|]; cbn in *; try lia. destruct v; cbn in *; try lia. destruct l; cbn; lia.
    - intros rule pt w e es acc en s en' s' _ IH. unfold out_cnt in *. rewrite Re. cbn. lia.
  Qed.

  (** The run under the limit [m] of an expression whose unlimited run ends in [r] *)
  Definition limited (r : out) (ev' : out -> Prop) : Prop :=
    if (out_cnt r <=? m)%N then ev' r
    else exists rule s', ev' (OPanic max_expr_msg rule s') /\ s_cnt s' = (m + 1)%N.

  Lemma limited_hit rule e en s : s_cnt s = m -> ev o' g rule e en s (OPanic max_expr_msg rule (tick s)).
  Proof. intros H. apply ev_limit. apply over_lim. cbn. lia. Qed.

  Ltac lim_cases r :=
    unfold limited in *; destruct (N.leb_spec (out_cnt r) m); destruct (N.leb_spec (out_cnt _) m).

  Lemma limit_all :
    (forall rule e en s r, ev o g rule e en s r -> (s_cnt s <= m)%N -> limited r (ev o' g rule e en s)) /\
    (forall rule pt w es acc en s r, evs o g rule pt w es acc en s r -> (s_cnt s <= m)%N -> limited r (evs o' g rule pt w es acc en s)) /\
    (forall rule es en s r, evc o g rule es en s r -> (s_cnt s <= m)%N -> limited r (evc o' g rule es en s)) /\
    (forall rule e acc en s r, evt o g rule e acc en s r -> (s_cnt s <= m)%N -> limited r (evt o' g rule e acc en s)).
  Proof.
    assert (Re : forall p s, s_cnt (restore p s) = s_cnt s) by (intros; unfold restore; now destruct (_ =? _)).
    destruct cnt_mono_all as (C1 & C2 & C3 & C4).
    (* composition with a step that keeps the counter and passes panics on *)
    assert (Wrap : forall rule0 (f : out -> out) r (E E' : out -> Prop) s,
       out_cnt (f r) = out_cnt r -> (forall mm x ss, f (OPanic mm x ss) = OPanic mm x ss) ->
       ((s_cnt (tick s) <= m)%N -> limited r E) -> (s_cnt s <= m)%N -> (s_cnt (tick s) <= out_cnt r)%N ->
       (over_limit o' (tick s) = false -> forall q, E q -> E' (f q)) ->
       (s_cnt s = m -> E' (OPanic max_expr_msg rule0 (tick s))) -> limited (f r) E').
    { intros rule0 f r E E' s Ec Ep H Hs Hc Hf Hh. unfold limited in *. rewrite Ec.
      destruct (N.eq_dec (s_cnt s) m) as [E1|E1].
      - destruct (N.leb_spec (out_cnt r) m); [cbn in Hc; lia|]. exists rule0, (tick s). split; [auto|]. cbn. lia.
      - assert (Ht : (s_cnt (tick s) <= m)%N) by (cbn; lia).
        specialize (H Ht). assert (Ov : over_limit o' (tick s) = false) by now apply over_lim_f.
        destruct (N.leb_spec (out_cnt r) m); [auto|]. destruct H as (rl & s' & H & K). exists rl, s'. split; [|exact K].
        rewrite <- Ep. now apply Hf. }
    apply ev_mutind.
    - intros rule e en s L. rewrite no_over in L. discriminate.
    - intros rule e en s r L P Hs. assert (R : ev o g rule e en s r) by now apply ev_prim.
      assert (Ep : out_cnt r = s_cnt (tick s)).
      { assert (Fa : forall x p w s, s_cnt (fail_at x p w s) = s_cnt s).
        { intros. unfold fail_at. destruct (Bool.eqb _ _); auto. destruct (_ <? _); auto. now destruct (_ <? _). }
        assert (Rd : forall rule s, s_cnt (read o rule s) = s_cnt s).
        { intros. unfold read, check_rune. now destruct (_ && _). }
        assert (Pe : forall t s, s_cnt (push_error t s) = s_cnt s).
        { intros. unfold push_error. destruct (s_ff s0); auto. destruct (_ <? _); auto. destruct (_ =? _); auto. now destruct (existsb _ _). }
        destruct e; cbn [prim_out] in P; try discriminate; try (injection P as <-).
        + destruct p; cbn; auto. now rewrite Pe.
        + destruct c; cbn; [now destruct (s_warns s)|now destruct (_ && _)].
        + destruct (at_eof _); unfold out_cnt; now rewrite Fa, ?Rd.
        + destruct (_ && _); unfold out_cnt; now rewrite Fa, ?Rd.
        + change (s_pt (tick s)) with (s_pt s); generalize (s_pt s); intros p; generalize (tick s); try clear R; induction runes as [|c rs IH]; intros s0; cbn [lit_loop].
          * unfold out_cnt. now rewrite Fa.
          * destruct (_ =? _)%N; [rewrite IH; apply Rd|]. unfold out_cnt. now rewrite Re, Fa.
        + destruct (find_rule name g); [discriminate|]. injection P as <-. reflexivity. }
      unfold limited. destruct (N.leb_spec (out_cnt r) m).
      + apply ev_prim; [apply over_lim_f; lia|]. rewrite <- P. symmetry.
        assert (Rd : forall rule s, read o rule s = read o' rule s).
        { intros. unfold read, check_rune. destruct Ho as (_ & _ & E). now rewrite E. }
        destruct e; cbn [prim_out]; try reflexivity.
        * destruct c; cbn; [reflexivity|]. destruct Ho as (_ & -> & _). reflexivity.
        * now rewrite Rd.
        * now rewrite Rd.
        * f_equal. clear - Rd. change (s_pt (tick s)) with (s_pt s); generalize (s_pt s); intros p; generalize (tick s); induction runes as [|c rs IH]; intros s0; cbn [lit_loop]; [reflexivity|].
          rewrite <- Rd, IH. reflexivity.
      + exists rule, (tick s). split; [|cbn in *; lia]. apply limited_hit. cbn in *. lia.
    - intros rule a e en s r L H IH Hs. pose proof (C1 _ _ _ _ _ H) as Hc.
      replace (act_out o rule a (tick s) r) with (act_out o' rule a (tick s) r).
      2: { unfold act_out. destruct Ho as (-> & _). reflexivity. }
      refine (Wrap rule (act_out o' rule a (tick s)) r _ _ s _ _ IH Hs _ _ _).
      + destruct r; cbn; auto. destruct (run_action _ _ _ _ _ _); reflexivity.
      + reflexivity.
      + lia.
      + intros Ov q Hq. now apply ev_act.
      + intros E. now apply limited_hit.
    - intros rule l e en s r L H IH Hs. pose proof (C1 _ _ _ _ _ H) as Hc.
      refine (Wrap rule (lab_out l en) r _ _ s _ _ IH Hs _ _ _).
      + destruct r; reflexivity. + reflexivity. + lia. + intros Ov q Hq. now apply ev_lab. + intros E. now apply limited_hit.
    - intros rule e en s r L H IH Hs. pose proof (C1 _ _ _ _ _ H) as Hc.
      refine (Wrap rule (not_out en (tick s)) r _ _ s _ _ IH Hs _ _ _).
      + destruct r; unfold not_out, out_cnt; now rewrite ?Re. + reflexivity. + cbn in *. lia. + intros Ov q Hq. now apply ev_not. + intros E. now apply limited_hit.
    - intros rule e en s r L H IH Hs. pose proof (C1 _ _ _ _ _ H) as Hc.
      refine (Wrap rule (opt_out en) r _ _ s _ _ IH Hs _ _ _).
      + destruct r; reflexivity. + reflexivity. + lia. + intros Ov q Hq. now apply ev_opt. + intros E. now apply limited_hit.
    - intros rule name e en s r L F H IH Hs. pose proof (C1 _ _ _ _ _ H) as Hc.
      refine (Wrap rule (ref_out en) r _ _ s _ _ IH Hs _ _ _).
      + destruct r; reflexivity. + reflexivity. + lia. + intros Ov q Hq. now apply ev_ref with e. + intros E. now apply limited_hit.
    - intros rule es en s r L H IH Hs. pose proof (C2 _ _ _ _ _ _ _ _ H) as Hc.
      refine (Wrap rule (fun q => q) r _ _ s _ _ IH Hs _ _ _); auto.
      + intros Ov q Hq. now apply ev_seq. + intros E. now apply limited_hit.
    - intros rule es en s r L H IH Hs. pose proof (C3 _ _ _ _ _ H) as Hc.
      refine (Wrap rule (fun q => q) r _ _ s _ _ IH Hs _ _ _); auto.
      + intros Ov q Hq. now apply ev_choice. + intros E. now apply limited_hit.
    - intros rule e en s r L H IH Hs. pose proof (C4 _ _ _ _ _ _ H) as Hc.
      refine (Wrap rule (fun q => q) r _ _ s _ _ IH Hs _ _ _); auto.
      + intros Ov q Hq. now apply ev_star. + intros E. now apply limited_hit.
    - intros rule e en s r L H IH Hs. pose proof (C4 _ _ _ _ _ _ H) as Hc.
      refine (Wrap rule (plus_out en) r _ _ s _ _ IH Hs _ _ _); auto.
      + destruct r as [v ? ?| | |]; cbn; auto. destruct v; auto. destruct l; auto.
      + intros Ov q Hq. now apply ev_plus. + intros E. now apply limited_hit.
    - intros. unfold limited. cbn. apply N.leb_le in H. rewrite H. constructor.
    - intros rule pt w e es acc en s v en' s' r H1 IH1 H2 IH2 Hs. specialize (IH1 Hs). pose proof (C2 _ _ _ _ _ _ _ _ H2) as Hc.
      unfold limited in *. cbn [out_cnt] in IH1. destruct (N.leb_spec (s_cnt s') m) as [L|L].
      + specialize (IH2 L). destruct (N.leb_spec (out_cnt r) m) as [L'|L']; [eapply evs_ok; eauto|].
        destruct IH2 as (rl & s2 & H & K). exists rl, s2. split; [eapply evs_ok; eauto|exact K].
      + destruct IH1 as (rl & s2 & H & K). destruct (N.leb_spec (out_cnt r) m) as [L'|L']; [lia|].
        exists rl, s2. split; [now apply evs_panic|exact K].
    - intros rule pt w e es acc en s en' s' _ IH Hs. specialize (IH Hs). unfold limited in *. cbn [out_cnt] in *. rewrite Re. cbn [s_cnt set_warns].
      destruct (N.leb_spec (s_cnt s') m); [now apply evs_fail|]. destruct IH as (rl & s2 & H1 & K). exists rl, s2. split; [now apply evs_panic|exact K].
    - intros rule pt w e es acc en s mm x s' _ IH Hs. specialize (IH Hs). unfold limited in *. cbn [out_cnt] in *.
      destruct (N.leb_spec (s_cnt s') m); [now apply evs_panic|]. destruct IH as (rl & s2 & H1 & K). exists rl, s2. split; [now apply evs_panic|exact K].
    - intros. unfold limited. cbn. apply N.leb_le in H. rewrite H. constructor.
    - intros rule e es en s v en' s' _ IH Hs. specialize (IH Hs). unfold limited in *. cbn [out_cnt] in *.
      destruct (N.leb_spec (s_cnt s') m); [eapply evc_ok; eauto|]. destruct IH as (rl & s2 & H1 & K). exists rl, s2. split; [now apply evc_panic|exact K].
    - intros rule e es en s en' s' r H1 IH1 H2 IH2 Hs. specialize (IH1 Hs). pose proof (C3 _ _ _ _ _ H2) as Hc. cbn in Hc.
      unfold limited in *. cbn [out_cnt s_cnt set_warns] in *. destruct (N.leb_spec (s_cnt s') m) as [L|L].
      + specialize (IH2 L). destruct (N.leb_spec (out_cnt r) m) as [L'|L']; [eapply evc_next; eauto|].
        destruct IH2 as (rl & s2 & H & K). exists rl, s2. split; [eapply evc_next; eauto|exact K].
      + destruct IH1 as (rl & s2 & H & K). destruct (N.leb_spec (out_cnt r) m) as [L'|L']; [lia|].
        exists rl, s2. split; [now apply evc_panic|exact K].
    - intros rule e es en s mm x s' _ IH Hs. specialize (IH Hs). unfold limited in *. cbn [out_cnt] in *.
      destruct (N.leb_spec (s_cnt s') m); [now apply evc_panic|]. destruct IH as (rl & s2 & H1 & K). exists rl, s2. split; [now apply evc_panic|exact K].
    - intros rule e acc en s en' s' _ IH Hs. specialize (IH Hs). unfold limited in *. cbn [out_cnt] in *.
      destruct (N.leb_spec (s_cnt s') m); [eapply evt_stop; eauto|]. destruct IH as (rl & s2 & H1 & K). exists rl, s2. split; [now apply evt_panic|exact K].
    - intros rule e acc en s v en' s' r H1 IH1 H2 IH2 Hs. specialize (IH1 Hs). pose proof (C4 _ _ _ _ _ _ H2) as Hc.
      unfold limited in *. cbn [out_cnt] in IH1. destruct (N.leb_spec (s_cnt s') m) as [L|L].
      + specialize (IH2 L). destruct (N.leb_spec (out_cnt r) m) as [L'|L']; [eapply evt_more; eauto|].
        destruct IH2 as (rl & s2 & H & K). exists rl, s2. split; [eapply evt_more; eauto|exact K].
      + destruct IH1 as (rl & s2 & H & K). destruct (N.leb_spec (out_cnt r) m) as [L'|L']; [lia|].
        exists rl, s2. split; [now apply evt_panic|exact K].
    - intros rule e acc en s mm x s' _ IH Hs. specialize (IH Hs). unfold limited in *. cbn [out_cnt] in *.
      destruct (N.leb_spec (s_cnt s') m); [now apply evt_panic|]. destruct IH as (rl & s2 & H1 & K). exists rl, s2. split; [now apply evt_panic|exact K].
  Qed.
End Limit.

(** ** The option *)

(** The options [opts] with another limit *)
Definition with_limit (n : N) (opts : list popt) : list popt := opts ++ [OptMaxExpressions n].

Lemma with_limit_cfg n opts : config_of (with_limit n opts) =
  PCfg n (k_entry (config_of opts)) (k_invalid (config_of opts)) (k_recover (config_of opts)) (k_ignore (config_of opts)) (k_warn (config_of opts)).
Proof. unfold with_limit, config_of. now rewrite fold_left_app. Qed.

(** How many expressions the unlimited parse evaluates: the value of
    ParserStats.ExprCnt after it (logstash_config.go:12706). *)
Definition expressions (opts : list popt) (ff : list failure) (data : bytes) : N :=
  let k := config_of (with_limit 0 opts) in
  match find_rule (k_entry k) gen_grammar with
  | None => 0
  | Some e => out_cnt (eval (settings_of k) gen_grammar (parse_fuel (List.length data)) (k_entry k) e [] (init_st (settings_of k) ff data))
  end.

Lemma parse_limit n opts ff data : (0 < n)%N ->
  ((expressions opts ff data <= n)%N -> parse (with_limit n opts) ff data = parse (with_limit 0 opts) ff data) /\
  ((n < expressions opts ff data)%N ->
     exists errs p rule ff', parse (with_limit n opts) ff data =
       (if k_recover (config_of opts) then Returned VNil (errs ++ [PError p (Some rule) max_expr_msg]) else Panicked max_expr_msg, ff')).
Proof.
  intros Hn. pose proof (parse_run (with_limit n opts) ff data) as P. pose proof (parse_run (with_limit 0 opts) ff data) as P'.
  unfold expressions. rewrite !with_limit_cfg in *. cbn [k_entry] in *.
  destruct (find_rule (k_entry (config_of opts)) gen_grammar) as [e|] eqn:F.
  2: { split; [congruence|lia]. }
  destruct P as (r & R & ->), P' as (r' & R' & ->).
  set (o' := settings_of (PCfg n _ _ _ _ _)) in *. set (o := settings_of (PCfg 0 _ _ _ _ _)) in *.
  assert (Ei : init_st o' ff data = init_st o ff data) by reflexivity. rewrite Ei in R.
  set (s := init_st o ff data) in *.
  assert (Er : eval o gen_grammar (parse_fuel (List.length data)) (k_entry (config_of opts)) e [] s = r').
  { assert (H : eval o gen_grammar (parse_fuel (List.length data)) (k_entry (config_of opts)) e [] s <> OFuel).
    { apply (gen_rule_fuel _ data); auto; subst s; rewrite init_st_pt; [constructor|]. rewrite start_rest. reflexivity. }
    apply eval_ev in H. eapply ev_fun; eauto. }
  rewrite Er.
  assert (Ho : o_ignore o = o_ignore o' /\ o_warn o = o_warn o' /\ o_invalid o = o_invalid o') by (repeat split).
  assert (Hm : o_max o' = Some n).
  { subst o'. cbn. destruct (N.eqb_spec n 0); [lia|reflexivity]. }
  assert (K : limited n r' (ev o' gen_grammar (k_entry (config_of opts)) e [] s)).
  { apply (proj1 (limit_all o o' n Ho eq_refl Hm gen_grammar) _ _ _ _ _ R'). subst s. rewrite init_cnt. lia. }
  unfold limited in K. split; intros H.
  - apply N.leb_le in H. rewrite H in K. rewrite (ev_fun _ _ _ _ _ _ _ _ R K). reflexivity.
  - apply N.leb_gt in H. rewrite H in K. destruct K as (rl & s' & K & C). rewrite (ev_fun _ _ _ _ _ _ _ _ R K). cbn.
    eexists _, _, _, _. reflexivity.
Qed.

(** Never more than [n] expressions are evaluated: the counter stops at n + 1,
    the refused one. *)
Lemma limited_count o n g rule e en s r : o_max o = Some n -> ev o g rule e en s r -> (s_cnt s <= n)%N -> (out_cnt r <= n + 1)%N.
Proof.
  intros Hm H Hs.
  assert (Re : forall p s, s_cnt (restore p s) = s_cnt s) by (intros; unfold restore; now destruct (_ =? _)).
  assert (Q : forall s, over_limit o s = false -> (s_cnt s <= n)%N) by (intros s0; unfold over_limit; rewrite Hm; apply N.ltb_ge).
  assert (G :
    (forall rule e en s r, ev o g rule e en s r -> (s_cnt s <= n)%N -> (out_cnt r <= n + 1)%N /\ match r with OPanic _ _ _ => True | _ => (out_cnt r <= n)%N end) /\
    (forall rule pt w es acc en s r, evs o g rule pt w es acc en s r -> (s_cnt s <= n)%N -> (out_cnt r <= n + 1)%N /\ match r with OPanic _ _ _ => True | _ => (out_cnt r <= n)%N end) /\
    (forall rule es en s r, evc o g rule es en s r -> (s_cnt s <= n)%N -> (out_cnt r <= n + 1)%N /\ match r with OPanic _ _ _ => True | _ => (out_cnt r <= n)%N end) /\
    (forall rule e acc en s r, evt o g rule e acc en s r -> (s_cnt s <= n)%N -> (out_cnt r <= n + 1)%N /\ match r with OPanic _ _ _ => True | _ => (out_cnt r <= n)%N end)).
  2: { now apply (proj1 G _ _ _ _ _ H Hs). }
  clear - Hm Re Q.
  assert (Fa : forall x p w s, s_cnt (fail_at x p w s) = s_cnt s).
  { intros. unfold fail_at. destruct (Bool.eqb _ _); auto. destruct (_ <? _); auto. now destruct (_ <? _). }
  assert (Rd : forall rule s, s_cnt (read o rule s) = s_cnt s).
  { intros. unfold read, check_rune. now destruct (_ && _). }
  assert (Pe : forall t s, s_cnt (push_error t s) = s_cnt s).
  { intros. unfold push_error. destruct (s_ff s); auto. destruct (_ <? _); auto. destruct (_ =? _); auto. now destruct (existsb _ _). }
  apply ev_mutind.
  - intros. cbn. split; auto. lia.
  - intros rule e en s r L P Hs. apply Q in L.
    enough (out_cnt r = s_cnt (tick s)) as -> by (split; [lia|destruct r; auto]).
    destruct e; cbn [prim_out] in P; try discriminate; try (injection P as <-).
    + destruct p; cbn; auto. now rewrite Pe.
    + destruct c; cbn; [now destruct (s_warns s)|now destruct (_ && _)].
    + destruct (at_eof _); unfold out_cnt; now rewrite Fa, ?Rd.
    + destruct (_ && _); unfold out_cnt; now rewrite Fa, ?Rd.
    + change (s_pt (tick s)) with (s_pt s); generalize (s_pt s); intros p; generalize (tick s); try clear R; induction runes as [|c rs IH]; intros s0; cbn [lit_loop].
      * unfold out_cnt. now rewrite Fa.
      * destruct (_ =? _)%N; [rewrite IH; apply Rd|]. unfold out_cnt. now rewrite Re, Fa.
    + destruct (find_rule name g); [discriminate|]. injection P as <-. reflexivity.
  - intros rule a e en s r L _ IH Hs. apply Q in L. specialize (IH L). destruct r as [v en' s'|en' s'|m' x s'|]; cbn in *; auto.
    destruct (run_action _ _ _ _ _ _); cbn; tauto.
  - intros rule l e en s r L _ IH Hs. apply Q in L. specialize (IH L). destruct r; cbn in *; auto.
  - intros rule e en s r L _ IH Hs. apply Q in L. specialize (IH L). destruct r; unfold not_out, out_cnt in *; rewrite ?Re; cbn in *; tauto.
  - intros rule e en s r L _ IH Hs. apply Q in L. specialize (IH L). destruct r; cbn in *; auto.
  - intros rule name e en s r L _ _ IH Hs. apply Q in L. specialize (IH L). destruct r; cbn in *; auto.
  - intros rule es en s r L _ IH Hs. apply Q in L. exact (IH L).
  - intros rule es en s r L _ IH Hs. apply Q in L. exact (IH L).
  - intros rule e en s r L _ IH Hs. apply Q in L. exact (IH L).
  - intros rule e en s r L _ IH Hs. apply Q in L. specialize (IH L). destruct r as [v en' s'|en' s'|m' x s'|]; cbn in *; auto.
    destruct v; cbn in *; auto. destruct l; cbn; auto.
  - intros. cbn. split; auto; lia.
  - intros rule pt w e es acc en s v en' s' r _ IH1 _ IH2 Hs. apply IH2. now apply IH1.
  - intros rule pt w e es acc en s en' s' _ IH Hs. specialize (IH Hs). unfold out_cnt in *. rewrite Re. exact IH.
  - intros rule pt w e es acc en s m' x s' _ IH Hs. exact (IH Hs).
  - intros. cbn. split; auto; lia.
  - intros rule e es en s v en' s' _ IH Hs. exact (IH Hs).
  - intros rule e es en s en' s' r _ IH1 _ IH2 Hs. apply IH2. now apply IH1.
  - intros rule e es en s m' x s' _ IH Hs. exact (IH Hs).
  - intros rule e acc en s en' s' _ IH Hs. exact (IH Hs).
  - intros rule e acc en s v en' s' r _ IH1 _ IH2 Hs. apply IH2. now apply IH1.
  - intros rule e acc en s m' x s' _ IH Hs. exact (IH Hs).
Qed.
