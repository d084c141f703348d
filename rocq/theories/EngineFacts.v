(** General facts about runs of the parser: positions, rollback, monotone parts
    of the state. *)
From Coq Require Import List NArith Bool String Arith Lia.
From Verif Require Import Bytes Utf8 F64 Ast Peg Actions Engine Parser QuoteFacts PosFacts Run.
Import ListNotations.

(** ** Monotone relations between the states before and after *)

Definition out_st (r : out) (P : st -> Prop) : Prop :=
  match r with OOk _ _ s | OFail _ s | OPanic _ _ s => P s | OFuel => True end.

(** The messages of errors that do not abort the parse *)
Inductive soft_msg : emsg -> Prop :=
| soft_encoding : soft_msg (MText (b "invalid encoding"))
| soft_rule n : soft_msg (MText (b "undefined rule: " ++ b n))
| soft_action ign w a en p t v m : run_action ign w a en p t = RErr v m -> soft_msg m.

Lemma read_cases o rule s (P : st -> Prop) :
  P (set_pt (advance_pt (s_pt s)) s) ->
  (forall m p, soft_msg m -> P (add_err_at rule m p (set_pt (advance_pt (s_pt s)) s))) -> P (read o rule s).
Proof. intros H1 H2. unfold read, check_rune. destruct (_ && _); auto. apply H2. constructor. Qed.

Section Mono.
  Variable o : settings.
  Variable g : grammar.
  Variable R : st -> st -> Prop.
  Hypothesis Rrefl : forall s, R s s.
  Hypothesis Rtrans : forall s s' s'', R s s' -> R s' s'' -> R s s''.
  Hypothesis Rcnt : forall s, R s (tick s).
  Hypothesis Rpt : forall p s, R s (set_pt p s).
  Hypothesis Rcur : forall p t s, R s (set_cur p t s).
  Hypothesis Rwarns : forall w s, R s (set_warns w s).
  Hypothesis Rmf : forall p l s, R s (set_mf p l s).
  Hypothesis Rinv : forall i s, R s (set_mfinv i s).
  Hypothesis Rerr : forall rule m p s, soft_msg m -> R s (add_err_at rule m p s).
  Hypothesis Rpush : forall m s, R s (push_error m s).
  Hypothesis Rfatal : forall m s, R s (snd (fatal_error m s)).
  Hypothesis Rinit : forall s, R s (set_ff [] s).

  Lemma mono_read rule s : R s (read o rule s).
  Proof. apply read_cases; intros; eauto. Qed.
  Lemma mono_fail_at x p w s : R s (fail_at x p w s).
  Proof.
    unfold fail_at. destruct (Bool.eqb x (s_mfinv s)); [|auto].
    destruct (_ <? _); [auto|]. destruct (_ <? _); apply Rmf.
  Qed.
  Lemma mono_restore p s : R s (restore p s).
  Proof. unfold restore. destruct (_ =? _); auto. Qed.
  Lemma mono_lit rule want pt rs en : forall s, out_st (lit_loop o rule want pt rs en s) (R s).
  Proof.
    induction rs as [|r rs IH]; intros s; cbn [lit_loop].
    - cbn. apply mono_fail_at.
    - destruct (_ =? r)%N.
      + specialize (IH (read o (Some rule) s)).
        destruct (lit_loop _ _ _ _ _ _ _); cbn in *; eauto using mono_read.
      + cbn. eapply Rtrans; [apply mono_fail_at|apply mono_restore].
  Qed.
  Lemma mono_prim rule e en s r : prim_out o g rule e en s = Some r -> out_st r (R s).
  Proof.
    destruct e; cbn [prim_out]; try discriminate; intros H; try (injection H as <-).
    - destruct p; cbn; auto. apply Rfatal.
    - cbn. destruct c; cbn.
      + destruct (s_warns s); auto.
      + destruct (_ && _); auto.
    - destruct (at_eof s); cbn; [apply mono_fail_at|].
      eapply Rtrans; [apply mono_read|apply mono_fail_at].
    - destruct (_ && _); cbn; [|apply mono_fail_at].
      eapply Rtrans; [apply mono_read|apply mono_fail_at].
    - apply mono_lit.
    - destruct (find_rule name g); [discriminate|]. injection H as <-. cbn. apply Rerr. constructor.
  Qed.

  Lemma ev_mono_all :
    (forall rule e en s r, ev o g rule e en s r -> out_st r (R s)) /\
    (forall rule pt w es acc en s r, evs o g rule pt w es acc en s r -> out_st r (R s)) /\
    (forall rule es en s r, evc o g rule es en s r -> out_st r (R s)) /\
    (forall rule e acc en s r, evt o g rule e acc en s r -> out_st r (R s)).
  Proof.
    apply ev_mutind.
    - intros. cbn. auto.
    - intros rule e en s r _ H. apply mono_prim in H. destruct r; cbn in *; eauto.
    - intros rule a e en s r _ _ IH. destruct r as [v en' s'|en' s'|m x s'|]; cbn in *; eauto.
      assert (K : R s (set_cur (pt_pos (s_pt s)) (slice_from (s_pt s) s') s')).
      { apply Rtrans with (tick s); [apply Rcnt|]. apply Rtrans with s'; [exact IH|apply Rcur]. }
      destruct (run_action _ _ _ _ _ _) eqn:Ea; cbn; [exact K| |exact K].
      eapply Rtrans; [exact K|]. apply Rerr. eapply soft_action. exact Ea.
    - intros rule l e en s r _ _ IH. destruct r; cbn in *; eauto.
    - intros rule e en s r _ _ IH.
      assert (K : forall s', R (set_mfinv (negb (s_mfinv (tick s))) (tick s)) s' ->
        R s (restore (s_pt (tick s)) (set_warns (s_warns (tick s)) (set_mfinv (negb (s_mfinv s')) s')))).
      { intros s' H. eapply Rtrans; [apply Rcnt|]. eapply Rtrans; [apply Rinv|]. eapply Rtrans; [exact H|].
        eapply Rtrans; [apply Rinv|]. eapply Rtrans; [apply Rwarns|]. apply mono_restore. }
      destruct r as [v en' s'|en' s'|m x s'|]; unfold not_out, out_st in *; auto.
      eapply Rtrans; [apply Rcnt|]. eapply Rtrans; [apply Rinv|]. exact IH.
    - intros rule e en s r _ _ IH. destruct r; cbn in *; eauto.
    - intros rule name e en s r _ _ _ IH. destruct r; cbn in *; eauto.
    - intros rule es en s r _ _ IH. destruct r; cbn in *; eauto.
    - intros rule es en s r _ _ IH. destruct r; cbn in *; eauto.
    - intros rule e en s r _ _ IH. destruct r; cbn in *; eauto.
    - intros rule e en s r _ _ IH. destruct r as [v en' s'|en' s'|m x s'|]; cbn in *; eauto.
      assert (R s s') by eauto. destruct v; auto. destruct l; auto.
    - intros. cbn. auto.
    - intros rule pt w e es acc en s v en' s' r _ IH1 _ IH2. destruct r; cbn in *; eauto.
    - intros rule pt w e es acc en s en' s' _ IH. cbn in *.
      eapply Rtrans; [exact IH|]. eapply Rtrans; [apply Rwarns|apply mono_restore].
    - intros rule pt w e es acc en s m x s' _ IH. exact IH.
    - intros. cbn. auto.
    - intros rule e es en s v en' s' _ IH. exact IH.
    - intros rule e es en s en' s' r _ IH1 _ IH2. destruct r; cbn in *; eauto.
    - intros rule e es en s m x s' _ IH. exact IH.
    - intros rule e acc en s en' s' _ IH. exact IH.
    - intros rule e acc en s v en' s' r _ IH1 _ IH2. destruct r; cbn in *; eauto.
    - intros rule e acc en s m x s' _ IH. exact IH.
  Qed.
  Lemma ev_mono rule e en s r : ev o g rule e en s r -> out_st r (R s).
  Proof. apply ev_mono_all. Qed.
End Mono.

(** Errors are only appended. *)
Lemma ev_errs o g rule e en s r : ev o g rule e en s r ->
  out_st r (fun s' => exists l, s_errs s' = s_errs s ++ l).
Proof.
  apply (ev_mono o g (fun s s' => exists l, s_errs s' = s_errs s ++ l)); intros; try (exists []; now rewrite app_nil_r).
  - destruct H as [l H], H0 as [l' H']. exists (l ++ l'). now rewrite H', H, app_assoc.
  - eexists. reflexivity.
  - exists []. rewrite app_nil_r. unfold push_error. destruct (s_ff s0) as [|f l]; [reflexivity|].
    destruct (_ <? _); [reflexivity|]. destruct (_ =? _); [|reflexivity]. destruct (existsb _ _); reflexivity.
Qed.

(** ** Positions and rollback *)

(** No literal contains U+FFFD, the rune the decoder also returns at the end of
    the input (and for invalid encodings). *)
Fixpoint lits_ok (e : expr) : bool :=
  match e with
  | EAct _ e | ELab _ e | ENot e | EPlus e | EStar e | EOpt e => lits_ok e
  | EChoice l | ESeq l => forallb lits_ok l
  | ELit _ rs => forallb (fun r => negb (r =? RuneError)%N) rs
  | _ => true
  end.
Definition grammar_lits_ok (g : grammar) : bool := forallb (fun x => lits_ok (snd x)) g.

Lemma find_rule_in name g e : find_rule name g = Some e -> In (name, e) g.
Proof.
  induction g as [|[n x] g IH]; cbn; [discriminate|].
  destruct (String.eqb_spec n name) as [->|_]; [intros H; inversion H; now left|right; auto].
Qed.

Lemma decode_nonempty rest : fst (decode_rune rest) <> RuneError -> rest <> [].
Proof. intros H ->. now apply H. Qed.
Lemma at_eof_spec s : at_eof s = true <-> pt_rest (s_pt s) = [].
Proof.
  unfold at_eof. destruct (decode_rune (pt_rest (s_pt s))) as [r w] eqn:E. split.
  - intros H. apply andb_true_iff in H as [_ H]. apply Nat.eqb_eq in H. subst w.
    destruct (pt_rest (s_pt s)) eqn:F; [reflexivity|].
    pose proof (decode_width (n :: l) ltac:(discriminate)) as W. rewrite E in W. cbn in W. lia.
  - intros H. rewrite H in E. cbn in E. now injection E as <- <-.
Qed.

Lemma read_pt o rule s : s_pt (read o rule s) = advance_pt (s_pt s).
Proof. apply read_cases; reflexivity. Qed.
Lemma read_warns o rule s : s_warns (read o rule s) = s_warns s.
Proof. apply read_cases; reflexivity. Qed.
Lemma fail_at_pt x p w s : s_pt (fail_at x p w s) = s_pt s.
Proof. unfold fail_at. destruct (Bool.eqb _ _); [|reflexivity]. destruct (_ <? _); [reflexivity|]. now destruct (_ <? _). Qed.
Lemma fail_at_warns x p w s : s_warns (fail_at x p w s) = s_warns s.
Proof. unfold fail_at. destruct (Bool.eqb _ _); [|reflexivity]. destruct (_ <? _); [reflexivity|]. now destruct (_ <? _). Qed.
Lemma push_error_pt m s : s_pt (push_error m s) = s_pt s.
Proof.
  unfold push_error. destruct (s_ff s); [reflexivity|]. destruct (_ <? _); [reflexivity|].
  destruct (_ =? _); [|reflexivity]. now destruct (existsb _ _).
Qed.
Lemma push_error_warns m s : s_warns (push_error m s) = s_warns s.
Proof.
  unfold push_error. destruct (s_ff s); [reflexivity|]. destruct (_ <? _); [reflexivity|].
  destruct (_ =? _); [|reflexivity]. now destruct (existsb _ _).
Qed.
Lemma restore_pt data p s : Reach data p -> Reach data (s_pt s) -> s_pt (restore p s) = p.
Proof.
  intros H1 H2. unfold restore. destruct (Nat.eqb_spec (p_off (pt_pos p)) (p_off (pt_pos (s_pt s)))) as [E|_]; [|reflexivity].
  symmetry. now apply (reach_eq data).
Qed.
Lemma restore_warns p s : s_warns (restore p s) = s_warns s.
Proof. unfold restore. now destruct (_ =? _). Qed.

Section Track.
  Variable o : settings.
  Variable g : grammar.
  Variable data : bytes.
  Hypothesis Hg : grammar_lits_ok g = true.

  (** Outcome of an expression started at point [p] with warnings [w]. *)
  Definition tracked (p : point) (w : option (list position)) (r : out) : Prop :=
    match r with
    | OOk _ _ s' => Steps p (s_pt s')
    | OFail _ s' => s_pt s' = p /\ s_warns s' = w
    | OPanic _ _ s' => Steps p (s_pt s')
    | OFuel => True
    end.

  Lemma track_lit rule want p w rs en : forall s,
    forallb (fun r => negb (r =? RuneError)%N) rs = true -> Reach data p -> Reach data (s_pt s) ->
    Steps p (s_pt s) -> s_warns s = w ->
    tracked p w (lit_loop o rule want p rs en s).
  Proof.
    induction rs as [|r rs IH]; intros s Hr Hp Hs St Hw; cbn [lit_loop].
    - cbn. now rewrite fail_at_pt.
    - cbn in Hr. apply andb_true_iff in Hr as [Hr1 Hr2].
      destruct (N.eqb_spec (fst (decode_rune (pt_rest (s_pt s)))) r) as [E|E].
      + assert (Hn : pt_rest (s_pt s) <> []).
        { apply decode_nonempty. rewrite E. apply negb_true_iff, N.eqb_neq in Hr1. exact Hr1. }
        apply IH; rewrite ?read_pt, ?read_warns; auto using reach_next, steps_next.
      + cbn. split.
        * apply (restore_pt data); [exact Hp|now rewrite fail_at_pt].
        * now rewrite restore_warns, fail_at_warns.
  Qed.
  Lemma track_prim rule e en s r :
    lits_ok e = true -> Reach data (s_pt s) -> prim_out o g rule e en s = Some r ->
    tracked (s_pt s) (s_warns s) r.
  Proof.
    intros He Hs. destruct e; cbn [prim_out]; try discriminate; intros H; try (injection H as <-).
    - destruct p; cbn; try constructor; [apply push_error_pt|apply push_error_warns].
    - cbn. destruct c; cbn.
      + destruct (s_warns s); apply steps_refl.
      + destruct (_ && _); apply steps_refl.
    - destruct (at_eof s) eqn:E; cbn.
      + now rewrite fail_at_pt, fail_at_warns.
      + rewrite fail_at_pt, read_pt. apply steps_one. rewrite <- at_eof_spec. congruence.
    - destruct (at_eof s) eqn:E; cbn; [now rewrite fail_at_pt, fail_at_warns|].
      destruct (class_match _ _ _ _); cbn; [|now rewrite fail_at_pt, fail_at_warns].
      rewrite fail_at_pt, read_pt. apply steps_one. rewrite <- at_eof_spec. congruence.
    - apply track_lit; auto using steps_refl.
    - destruct (find_rule name g); [discriminate|]. injection H as <-. cbn. auto.
  Qed.

  Lemma track_all :
    (forall rule e en s r, ev o g rule e en s r -> lits_ok e = true -> Reach data (s_pt s) ->
       tracked (s_pt s) (s_warns s) r) /\
    (forall rule pt w es acc en s r, evs o g rule pt w es acc en s r -> forallb lits_ok es = true ->
       Reach data pt -> Steps pt (s_pt s) -> tracked pt w r) /\
    (forall rule es en s r, evc o g rule es en s r -> forallb lits_ok es = true -> Reach data (s_pt s) ->
       tracked (s_pt s) (s_warns s) r) /\
    (forall rule e acc en s r, evt o g rule e acc en s r -> lits_ok e = true -> Reach data (s_pt s) ->
       tracked (s_pt s) (s_warns s) r /\
       (forall en' s', r = OOk (VList []) en' s' -> s_pt s' = s_pt s /\ s_warns s' = s_warns s)).
  Proof.
    apply ev_mutind.
    - intros. cbn. apply steps_refl.
    - intros rule e en s r _ H He Hs. exact (track_prim rule e en (tick s) r He Hs H).
    - intros rule a e en s r _ _ IH He Hs. specialize (IH He Hs).
      destruct r as [v en' s'|en' s'|m x s'|]; cbn in *; auto.
      destruct (run_action _ _ _ _ _ _); exact IH.
    - intros rule l e en s r _ _ IH He Hs. specialize (IH He Hs). destruct r; cbn in *; auto.
    - intros rule e en s r _ _ IH He Hs. specialize (IH He Hs).
      assert (K : forall s', Steps (s_pt s) (s_pt s') ->
        let s2 := restore (s_pt (tick s)) (set_warns (s_warns (tick s)) (set_mfinv (negb (s_mfinv s')) s')) in
        s_pt s2 = s_pt s /\ s_warns s2 = s_warns s).
      { intros s' H s2. split; [|subst s2; rewrite restore_warns; reflexivity]. apply (restore_pt data); [exact Hs|].
        eapply steps_reach; eauto. }
      destruct r as [v en' s'|en' s'|m x s'|]; unfold not_out, tracked in *; auto.
      destruct IH as [IH _]. destruct (K s') as [-> _]; [rewrite IH; apply steps_refl|apply steps_refl].
    - intros rule e en s r _ _ IH He Hs. specialize (IH He Hs). destruct r; cbn in *; auto.
      destruct IH as [-> _]. apply steps_refl.
    - intros rule name e en s r _ F _ IH _ Hs.
      assert (He : lits_ok e = true).
      { apply find_rule_in in F. unfold grammar_lits_ok in Hg. rewrite forallb_forall in Hg. exact (Hg _ F). }
      specialize (IH He Hs). destruct r; cbn in *; auto.
    - intros rule es en s r _ _ IH He Hs. apply (IH He Hs). apply steps_refl.
    - intros rule es en s r _ _ IH He Hs. exact (IH He Hs).
    - intros rule e en s r _ _ IH He Hs. exact (proj1 (IH He Hs)).
    - intros rule e en s r _ _ IH He Hs. destruct (IH He Hs) as [H1 H2].
      destruct r as [v en' s'|en' s'|m x s'|]; cbn in *; auto.
      destruct v; auto. destruct l; auto. exact (H2 en' s' eq_refl).
    - intros. cbn. assumption.
    - intros rule pt w e es acc en s v en' s' r _ IH1 _ IH2 He Hp Hs. cbn in He.
      apply andb_true_iff in He as [He1 He2].
      apply IH2; auto. eapply steps_trans; [exact Hs|].
      apply (IH1 He1). eapply steps_reach; eauto.
    - intros rule pt w e es acc en s en' s' _ IH He Hp Hs. cbn in He.
      apply andb_true_iff in He as [He1 He2]. assert (Hr : Reach data (s_pt s)) by (eapply steps_reach; eauto).
      destruct (IH He1 Hr) as [E1 E2]. cbn. split; [|apply restore_warns].
      apply (restore_pt data); [exact Hp|]. cbn. now rewrite E1.
    - intros rule pt w e es acc en s m x s' _ IH He Hp Hs. cbn in He.
      apply andb_true_iff in He as [He1 He2]. cbn in *. eapply steps_trans; [exact Hs|].
      apply (IH He1). eapply steps_reach; eauto.
    - intros. cbn. auto.
    - intros rule e es en s v en' s' _ IH He Hs. cbn in He. apply andb_true_iff in He as [He1 He2]. exact (IH He1 Hs).
    - intros rule e es en s en' s' r _ IH1 _ IH2 He Hs. cbn in He. apply andb_true_iff in He as [He1 He2].
      destruct (IH1 He1 Hs) as [E1 E2]. specialize (IH2 He2). cbn in IH2. rewrite E1 in IH2. auto.
    - intros rule e es en s m x s' _ IH He Hs. cbn in He. apply andb_true_iff in He as [He1 He2]. exact (IH He1 Hs).
    - intros rule e acc en s en' s' _ IH He Hs. destruct (IH He Hs) as [E1 E2]. cbn. rewrite E1. split; [apply steps_refl|].
      intros en'' s'' H. injection H as _ _ <-. split; auto; now rewrite E1.
    - intros rule e acc en s v en' s' r _ IH1 H2 IH2 He Hs. specialize (IH1 He Hs). cbn in IH1.
      assert (Hr : Reach data (s_pt s')) by (eapply steps_reach; eauto).
      destruct (IH2 He Hr) as [K1 K2]. split.
      + destruct r as [v2 en2 s2|en2 s2|m2 x2 s2|]; cbn in *; eauto using steps_trans.
        exfalso. clear - H2. remember (OFail en2 s2) as q eqn:E. remember (v :: acc) as a eqn:E2. revert v acc E2 E.
        induction H2; intros; subst; try discriminate. eapply IHevt; eauto.
      + intros en2 s2 ->. exfalso. clear - H2.
        assert (G : forall a, a <> [] -> forall en s, ~ evt o g rule e a en s (OOk (VList []) en2 s2)).
        { intros a Ha en0 s0 H. remember (OOk (VList []) en2 s2) as q eqn:E. revert Ha E.
          induction H; intros Ha E; try discriminate.
          - assert (E' : rev acc0 = []) by congruence.
            apply (f_equal (@rev val)) in E'. rewrite rev_involutive in E'. auto.
          - eapply IHevt; eauto; intros K; discriminate K. }
        eapply (G (v :: acc)); [discriminate|exact H2].
    - intros rule e acc en s m x s' _ IH He Hs. split; [exact (IH He Hs)|]. discriminate.
  Qed.

  Theorem ev_track rule e en s r :
    ev o g rule e en s r -> lits_ok e = true -> Reach data (s_pt s) -> tracked (s_pt s) (s_warns s) r.
  Proof. intros H He Hs. exact (proj1 track_all rule e en s r H He Hs). Qed.
End Track.
