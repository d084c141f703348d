(** The runtime of Engine.v computes the relation of PegSem.v. *)
From Coq Require Import List NArith Bool String Arith Lia.
From Verif Require Import Bytes Utf8 F64 Ast Peg Actions Engine Parser GrammarGen PosFacts Run EngineFacts Termination Matches
  RunInv HistFacts Sim ParseFacts Utf8Facts InputFacts PegSem.
Import ListNotations.

(** ** The relation is a function *)
Section Fun.
  Variable ign : bool.
  Variable g : grammar.
  Lemma no_ok r v en q : r = PFail \/ r = PAbort -> r <> POk v en q.
  Proof. intros [->| ->]; discriminate. Qed.
  Ltac disj := match goal with H : _ = PFail \/ _ = PAbort |- _ => destruct H; subst end.
  Lemma peg_fun_all :
    (forall e en p r, peg ign g e en p r -> forall r', peg ign g e en p r' -> r = r') /\
    (forall es en p r, pegs ign g es en p r -> forall r', pegs ign g es en p r' -> r = r') /\
    (forall e p r, pegt ign g e p r -> forall r', pegt ign g e p r' -> r = r').
  Proof.
    apply peg_mutind; intros;
      match goal with H : peg _ _ _ _ _ ?r' |- _ = ?r' => inversion H; subst
                    | H : pegs _ _ _ _ _ ?r' |- _ = ?r' => inversion H; subst
                    | H : pegt _ _ _ _ ?r' |- _ = ?r' => inversion H; subst end;
      try match goal with A : find_rule ?n ?g = Some ?x, B : find_rule ?n ?g = Some ?y |- _ =>
            rewrite A in B; injection B as <- end;
      repeat match goal with
      | IH : forall r', peg _ _ ?e ?en ?p r' -> _ = r', H : peg _ _ ?e ?en ?p ?r |- _ =>
          let E := fresh "E" in pose proof (IH _ H) as E; clear IH; try (disj; discriminate); inversion E; subst
      | IH : forall r', pegs _ _ ?e ?en ?p r' -> _ = r', H : pegs _ _ ?e ?en ?p ?r |- _ =>
          let E := fresh "E" in pose proof (IH _ H) as E; clear IH; try (disj; discriminate); inversion E; subst
      | IH : forall r', pegt _ _ ?e ?p r' -> _ = r', H : pegt _ _ ?e ?p ?r |- _ =>
          let E := fresh "E" in pose proof (IH _ H) as E; clear IH; try (disj; discriminate); inversion E; subst
      end; repeat disj; try reflexivity; try congruence; try discriminate; try tauto; try (match goal with H : pt_rest _ = [] \/ _ |- _ => destruct H; congruence end).
  Qed.
  Lemma peg_fun e en p r r' : peg ign g e en p r -> peg ign g e en p r' -> r = r'.
  Proof. intros H. exact (proj1 peg_fun_all _ _ _ _ H r'). Qed.
End Fun.

(** ** Runs and derivations *)
Section EvPeg.
  Variable o : settings.
  Variable g : grammar.
  Variable data : bytes.
  Hypothesis Hg : grammar_lits_ok g = true.
  Hypothesis Hmax : o_max o = None.
  Hypothesis Hwarn : o_warn o = false.
  Hypothesis Henc : forall p, Reach data p -> bad_rune (pt_rest p) && negb (o_invalid o) = false.

  Definition same (s s' : st) : Prop := s_errs s' = s_errs s.
  Definition ext (s s' : st) : Prop := exists l, s_errs s' = s_errs s ++ l.
  Lemma ext_same s s1 s2 : ext s s1 -> ext s1 s2 -> same s s2 -> same s s1 /\ same s1 s2.
  Proof.
    unfold same. intros [l H] [l' H'] E. rewrite H', H, <- app_assoc in E.
    assert (K : l ++ l' = []) by (rewrite <- (app_nil_r (s_errs s)) in E at 2; now apply app_inv_head in E).
    apply app_eq_nil in K as [-> ->]. rewrite app_nil_r in *. split; congruence.
  Qed.
  Lemma ext_refl s : ext s s.
  Proof. exists []. now rewrite app_nil_r. Qed.
  Lemma ext_trans s1 s2 s3 : ext s1 s2 -> ext s2 s3 -> ext s1 s3.
  Proof. intros [l H] [l' H']. exists (l ++ l'). now rewrite H', H, app_assoc. Qed.

  Definition agree (Q : pout -> Prop) (s : st) (r : out) : Prop :=
    match r with
    | OOk v en' s' => s_warns s' = Some [] /\ ext s s' /\
        ((same s s' /\ Q (POk v en' (s_pt s'))) \/ (~ same s s' /\ Q PAbort))
    | OFail _ s' => s_warns s' = Some [] /\ ext s s' /\ ((same s s' /\ Q PFail) \/ (~ same s s' /\ Q PAbort))
    | OPanic _ _ _ => Q PAbort
    | OFuel => False
    end.

  Lemma over_none s : over_limit o s = false.
  Proof. unfold over_limit. now rewrite Hmax. Qed.
  Lemma check_same rule s : Reach data (s_pt s) -> check_rune o rule s = s.
  Proof. intros H. unfold check_rune. now rewrite Henc. Qed.
  Lemma read_clean' rule s : Reach data (s_pt s) -> pt_rest (s_pt s) <> [] -> read o rule s = set_pt (advance_pt (s_pt s)) s.
  Proof. intros H N. unfold read. apply check_same. cbn. now apply reach_next. Qed.
  Lemma fail_at_same x p w s : same s (fail_at x p w s).
  Proof. apply fail_at_errs. Qed.

  Lemma lit_peg rule want p rs en : forall s,
    forallb (fun r => negb (r =? RuneError)%N) rs = true -> Reach data p -> Reach data (s_pt s) ->
    match lit_end rs (s_pt s) with
    | Some q => exists s', lit_loop o rule want p rs en s = OOk (VBytes (seg p q)) en s' /\ s_pt s' = q /\ s_warns s' = s_warns s /\ s_errs s' = s_errs s
    | None => exists s', lit_loop o rule want p rs en s = OFail en s' /\ s_pt s' = p /\ s_warns s' = s_warns s /\ s_errs s' = s_errs s
    end.
  Proof.
    induction rs as [|r rs IH]; intros s Hr Hp Hs; cbn [lit_loop lit_end].
    - exists (fail_at true (pt_pos p) want s). rewrite slice_seg, ?fail_at_pt, fail_at_warns, fail_at_errs. auto.
    - cbn in Hr. apply andb_true_iff in Hr as [Hr1 Hr2].
      destruct (N.eqb_spec (fst (decode_rune (pt_rest (s_pt s)))) r) as [E|E].
      + assert (Hn : pt_rest (s_pt s) <> []).
        { apply decode_nonempty. rewrite E. apply negb_true_iff, N.eqb_neq in Hr1. exact Hr1. }
        rewrite read_clean' by auto.
        apply (IH (set_pt (advance_pt (s_pt s)) s)); auto. cbn. now apply reach_next.
      + eexists. split; [reflexivity|]. rewrite restore_warns, fail_at_warns. repeat split.
        * apply (restore_pt data); [exact Hp|now rewrite fail_at_pt].
        * unfold restore. destruct (_ =? _); cbn; apply fail_at_errs.
  Qed.

  Lemma agree_tick Q s r : agree Q (tick s) r -> agree Q s r.
  Proof. destruct r; auto. Qed.
  Lemma prim_agree rule e en s r : lits_ok e = true -> Reach data (s_pt s) -> s_warns s = Some [] ->
    prim_out o g rule e en s = Some r -> agree (peg (o_ignore o) g e en (s_pt s)) s r.
  Proof.
    intros He Hs Hw. destruct e; cbn [prim_out]; try discriminate; intros H; try (injection H as <-).
    - destruct p; cbn.
      + split; [exact Hw|]. split; [exists []; cbn; now rewrite app_nil_r|]. left. split; [reflexivity|]. constructor.
      + rewrite push_error_warns. split; [exact Hw|]. unfold ext, same. rewrite push_error_errs.
        split; [exists []; cbn; now rewrite app_nil_r|]. left. split; [reflexivity|]. constructor.
      + constructor.
    - cbn. assert (E : run_state o c s = s).
      { destruct c; cbn; [now rewrite Hw|now rewrite Hwarn]. }
      rewrite E. split; [exact Hw|]. split; [exists []; cbn; now rewrite app_nil_r|]. left. split; [reflexivity|]. constructor.
    - destruct (at_eof s) eqn:E; cbn.
      + apply at_eof_spec in E. rewrite fail_at_warns. unfold ext, same. rewrite fail_at_errs. split; [exact Hw|].
        split; [exists []; cbn; now rewrite app_nil_r|]. left. split; [reflexivity|]. now constructor.
      + assert (N : pt_rest (s_pt s) <> []) by (rewrite <- at_eof_spec; congruence).
        rewrite read_clean' by auto. rewrite fail_at_warns. unfold ext, same. rewrite fail_at_errs. cbn.
        split; [exact Hw|]. split; [exists []; cbn; now rewrite app_nil_r|]. left. split; [reflexivity|].
        rewrite slice_seg, fail_at_pt. cbn. now constructor.
    - destruct (at_eof s) eqn:E; cbn.
      { apply at_eof_spec in E. rewrite fail_at_warns. unfold ext, same. rewrite fail_at_errs. split; [exact Hw|].
        split; [exists []; cbn; now rewrite app_nil_r|]. left. split; [reflexivity|]. constructor. auto. }
      assert (N : pt_rest (s_pt s) <> []) by (rewrite <- at_eof_spec; congruence).
      destruct (class_match _ _ _ _) eqn:C; cbn.
      + rewrite read_clean' by auto. rewrite fail_at_warns. unfold ext, same. rewrite fail_at_errs. cbn.
        split; [exact Hw|]. split; [exists []; cbn; now rewrite app_nil_r|]. left. split; [reflexivity|].
        rewrite slice_seg, fail_at_pt. cbn. now constructor.
      + rewrite fail_at_warns. unfold ext, same. rewrite fail_at_errs. split; [exact Hw|].
        split; [exists []; cbn; now rewrite app_nil_r|]. left. split; [reflexivity|]. constructor. auto.
    - pose proof (lit_peg rule want (s_pt s) runes en s He Hs Hs) as K. destruct (lit_end runes (s_pt s)) as [q|] eqn:E.
      + destruct K as (s' & -> & K1 & K2 & K3). cbn. unfold ext, same. rewrite K2, K3, K1. split; [exact Hw|].
        split; [exists []; cbn; now rewrite app_nil_r|]. left. split; [reflexivity|]. now constructor.
      + destruct K as (s' & -> & K1 & K2 & K3). cbn. unfold ext, same. rewrite K2, K3. split; [exact Hw|].
        split; [exists []; cbn; now rewrite app_nil_r|]. left. split; [reflexivity|]. now constructor.
    - destruct (find_rule name g) eqn:F; [discriminate|]. injection H as <-. cbn. split; [exact Hw|].
      split; [eexists; reflexivity|]. right. split; [|now constructor].
      unfold same. cbn. intros E. rewrite <- (app_nil_r (s_errs s)) in E at 2. apply app_inv_head in E. discriminate.
  Qed.

  Lemma ev_peg_all :
    (forall rule e en s r, ev o g rule e en s r -> lits_ok e = true -> Reach data (s_pt s) -> s_warns s = Some [] ->
       agree (peg (o_ignore o) g e en (s_pt s)) s r) /\
    (forall rule pt w es acc en s r, evs o g rule pt w es acc en s r -> forallb lits_ok es = true ->
       Reach data (s_pt s) -> Reach data pt -> s_warns s = Some [] -> w = Some [] ->
       agree (fun x => match x with
                       | POk v en' q => exists l, v = VList (rev acc ++ l) /\ pegs (o_ignore o) g es en (s_pt s) (POk (VList l) en' q)
                       | _ => pegs (o_ignore o) g es en (s_pt s) x end) s r) /\
    (forall rule es en s r, evc o g rule es en s r -> forallb lits_ok es = true ->
       Reach data (s_pt s) -> s_warns s = Some [] ->
       agree (peg (o_ignore o) g (EChoice es) en (s_pt s)) s r) /\
    (forall rule e acc en s r, evt o g rule e acc en s r -> lits_ok e = true ->
       Reach data (s_pt s) -> s_warns s = Some [] ->
       agree (fun x => match x with
                       | POk v en' q => en' = en /\ exists l, v = VList (rev acc ++ l) /\ pegt (o_ignore o) g e (s_pt s) (Some (l, q))
                       | PAbort => pegt (o_ignore o) g e (s_pt s) None
                       | PFail => False end) s r).
  Proof.
    apply ev_mutind.
    - intros rule e en s L. rewrite over_none in L. discriminate.
    - intros rule e en s r _ H He Hs Hw. apply agree_tick. apply (prim_agree rule e en (tick s)); auto.
    - intros rule a e en s r _ H IH He Hs Hw. specialize (IH He Hs Hw). apply agree_tick.
      destruct r as [v en' s'|en' s'|m x s'|]; unfold act_out; cbn [agree] in *; auto.
      + destruct IH as (W & X & K). rewrite slice_seg. cbn [s_warns set_cur]. rewrite W.
        destruct (run_action _ _ _ _ _ _) as [v'|v' m|m] eqn:E; cbn [agree].
        * split; [exact W|]. split; [exact X|]. destruct K as [[K1 K2]|[K1 K2]]; [left|right]; split; auto.
          -- eapply peg_act; eauto.
          -- eapply peg_act_no; eauto.
        * split; [exact W|]. split; [eapply ext_trans; [exact X|]; cbn; eexists; reflexivity|].
          right. split.
          { unfold same. cbn. destruct X as [l ->]. intros E'. apply (f_equal (@List.length _)) in E'.
            rewrite !app_length in E'. cbn in E'. lia. }
          destruct K as [[K1 K2]|[K1 K2]].
          -- eapply peg_act_abort; [exact K2|exact E|discriminate].
          -- eapply peg_act_no; eauto.
        * destruct K as [[K1 K2]|[K1 K2]].
          -- eapply peg_act_abort; [exact K2|exact E|discriminate].
          -- eapply peg_act_no; eauto.
      + destruct IH as (W & X & K). split; [exact W|]. split; [exact X|].
        destruct K as [[K1 K2]|[K1 K2]]; [left|right]; split; auto; eapply peg_act_no; eauto.
      + eapply peg_act_no; eauto.
    - intros rule l e en s r _ H IH He Hs Hw. specialize (IH He Hs Hw). apply agree_tick.
      destruct r as [v en' s'|en' s'|m x s'|]; cbn [agree lab_out] in *; auto.
      + destruct IH as (W & X & K). split; [exact W|]. split; [exact X|].
        destruct K as [[K1 K2]|[K1 K2]]; [left|right]; split; auto; [eapply peg_lab|eapply peg_lab_no]; eauto.
      + destruct IH as (W & X & K). split; [exact W|]. split; [exact X|].
        destruct K as [[K1 K2]|[K1 K2]]; [left|right]; split; auto; eapply peg_lab_no; eauto.
      + eapply peg_lab_no; eauto.
    - intros rule e en s r L H IH He Hs Hw. specialize (IH He Hs Hw). apply agree_tick.
      pose proof (ev_track o g data Hg _ _ _ _ _ H He Hs) as T.
      assert (F : forall s', Reach data (s_pt s') -> let f := restore (s_pt (tick s)) (set_warns (s_warns (tick s)) (set_mfinv (negb (s_mfinv s')) s')) in
        s_pt f = s_pt s /\ s_warns f = Some [] /\ s_errs f = s_errs s').
      { intros s' Hs'. cbn zeta. split; [apply (restore_pt data); auto|]. rewrite restore_warns. split; [exact Hw|].
        unfold restore. destruct (_ =? _); reflexivity. }
      destruct r as [v en' s'|en' s'|m x s'|]; unfold not_out; cbn [agree tracked] in *; auto.
      + destruct IH as (W & X & K). destruct (F s') as (F1 & F2 & F3); [eapply steps_reach; eauto|].
        unfold same, ext in *. rewrite F2, F3. split; [reflexivity|]. split; [exact X|].
        destruct K as [[K1 K2]|[K1 K2]]; [left|right]; split; auto; [eapply peg_not_no|eapply peg_not_abort]; eauto.
      + destruct IH as (W & X & K). destruct (F s') as (F1 & F2 & F3); [destruct T as [-> _]; exact Hs|].
        unfold same, ext in *. rewrite F2, F3. split; [reflexivity|]. split; [exact X|]. rewrite F1.
        destruct K as [[K1 K2]|[K1 K2]]; [left|right]; split; auto; [eapply peg_not|eapply peg_not_abort]; eauto.
      + now apply peg_not_abort.
    - intros rule e en s r _ H IH He Hs Hw. specialize (IH He Hs Hw). apply agree_tick.
      pose proof (ev_track o g data Hg _ _ _ _ _ H He Hs) as T.
      destruct r as [v en' s'|en' s'|m x s'|]; cbn [agree opt_out tracked] in *; auto.
      + destruct IH as (W & X & K). split; [exact W|]. split; [exact X|].
        destruct K as [[K1 K2]|[K1 K2]]; [left|right]; split; auto; [eapply peg_opt|eapply peg_opt_abort]; eauto.
      + destruct IH as (W & X & K). destruct T as [T _]. rewrite T. split; [exact W|]. split; [exact X|].
        destruct K as [[K1 K2]|[K1 K2]]; [left|right]; split; auto; [eapply peg_opt_none|eapply peg_opt_abort]; eauto.
      + now apply peg_opt_abort.
    - intros rule name e en s r _ F H IH _ Hs Hw.
      assert (He : lits_ok e = true).
      { apply find_rule_in in F. unfold grammar_lits_ok in Hg. rewrite forallb_forall in Hg. exact (Hg _ F). }
      specialize (IH He Hs Hw). apply agree_tick.
      destruct r as [v en' s'|en' s'|m x s'|]; cbn [agree ref_out] in *; auto.
      + destruct IH as (W & X & K). split; [exact W|]. split; [exact X|].
        destruct K as [[K1 K2]|[K1 K2]]; [left|right]; split; auto; [eapply peg_ref|eapply peg_ref_no]; eauto.
      + destruct IH as (W & X & K). split; [exact W|]. split; [exact X|].
        destruct K as [[K1 K2]|[K1 K2]]; [left|right]; split; auto; eapply peg_ref_no; eauto.
      + eapply peg_ref_no; eauto.
    - intros rule es en s r _ H IH He Hs Hw. specialize (IH He Hs Hs Hw Hw). apply agree_tick.
      destruct r as [v en' s'|en' s'|m x s'|]; cbn [agree] in *; auto.
      + destruct IH as (W & X & K). split; [exact W|]. split; [exact X|].
        destruct K as [[K1 K2]|[K1 K2]]; [left|right]; split; auto; [|eapply peg_seq_no; eauto].
        destruct K2 as (l & -> & K2). cbn. now apply peg_seq.
      + destruct IH as (W & X & K). split; [exact W|]. split; [exact X|].
        destruct K as [[K1 K2]|[K1 K2]]; [left|right]; split; auto; eapply peg_seq_no; eauto.
      + eapply peg_seq_no; eauto.
    - intros rule es en s r _ H IH He Hs Hw. apply agree_tick. exact (IH He Hs Hw).
    - intros rule e en s r _ H IH He Hs Hw. specialize (IH He Hs Hw). apply agree_tick.
      destruct r as [v en' s'|en' s'|m x s'|]; cbn [agree] in *; auto.
      + destruct IH as (W & X & K). split; [exact W|]. split; [exact X|].
        destruct K as [[K1 K2]|[K1 K2]]; [left|right]; split; auto; [|now apply peg_star_abort].
        destruct K2 as (-> & l & -> & K2). now apply peg_star.
      + destruct IH as (W & X & [[_ []]|[K1 K2]]). split; [exact W|]. split; [exact X|]. right. split; auto. now apply peg_star_abort.
      + now apply peg_star_abort.
    - intros rule e en s r _ H IH He Hs Hw. specialize (IH He Hs Hw). apply agree_tick.
      destruct r as [v en' s'|en' s'|m x s'|]; cbn [agree plus_out] in *; auto.
      + destruct IH as (W & X & K). destruct K as [[K1 K2]|[K1 K2]].
        * destruct K2 as (-> & l & -> & K2). cbn in K2 |- *. destruct l as [|a l].
          -- cbn. split; [exact W|]. split; [exact X|]. left. split; [exact K1|]. eapply peg_plus_no; eauto.
          -- cbn. split; [exact W|]. split; [exact X|]. left. split; [exact K1|]. now apply peg_plus.
        * assert (Z : agree (peg (o_ignore o) g (EPlus e) en (s_pt (tick s))) (tick s) (OOk v en' s')).
          { cbn. split; [exact W|]. split; [exact X|]. right. split; [exact K1|]. now apply peg_plus_abort. }
          destruct v; try exact Z. destruct l; [|exact Z].
          cbn. split; [exact W|]. split; [exact X|]. right. split; [exact K1|]. now apply peg_plus_abort.
      + destruct IH as (W & X & [[_ []]|[K1 K2]]). split; [exact W|]. split; [exact X|]. right. split; auto. now apply peg_plus_abort.
      + now apply peg_plus_abort.
    - intros rule pt w acc en s _ Hs Hp Hw Hw'. cbn [agree]. split; [exact Hw|]. split; [exists []; cbn; now rewrite app_nil_r|]. left. split; [reflexivity|].
      exists []. rewrite app_nil_r. split; [reflexivity|constructor].
    - intros rule pt w e es acc en s v en' s' r H1 IH1 H2 IH2 He Hs Hp Hw Hw'. cbn in He. apply andb_true_iff in He as [He1 He2].
      specialize (IH1 He1 Hs Hw). cbn [agree] in IH1. destruct IH1 as (W & X & K).
      pose proof (ev_track o g data Hg _ _ _ _ _ H1 He1 Hs) as T. cbn in T.
      assert (Hs' : Reach data (s_pt s')) by exact (steps_reach _ _ _ Hs T).
      specialize (IH2 He2 Hs' Hp W Hw').
      assert (Abort : peg (o_ignore o) g e en (s_pt s) PAbort -> pegs (o_ignore o) g (e :: es) en (s_pt s) PAbort)
        by (intros; eapply pegs_no; eauto).
      assert (Later : forall x, peg (o_ignore o) g e en (s_pt s) (POk v en' (s_pt s')) ->
          pegs (o_ignore o) g es en' (s_pt s') x -> x = PFail \/ x = PAbort -> pegs (o_ignore o) g (e :: es) en (s_pt s) x)
        by (intros; eapply pegs_later; eauto).
      destruct r as [v2 en2 s2|en2 s2|m2 x2 s2|]; cbn [agree] in *; auto.
      + destruct IH2 as (W2 & X2 & K2). split; [exact W2|]. split; [eapply ext_trans; eauto|].
        destruct K as [[K1 K]|[K1 K]].
        * destruct K2 as [[K3 K4]|[K3 K4]].
          -- left. split; [unfold same in *; congruence|]. destruct K4 as (l & -> & K4). exists (v :: l). cbn. rewrite <- app_assoc.
             split; [reflexivity|]. eapply pegs_cons; eauto.
          -- right. split; [|eauto]. intros E. apply K3. exact (proj1 (ext_same s s' s2 ltac:(assumption) ltac:(assumption) E)) || exact (proj2 (ext_same s s' s2 ltac:(assumption) ltac:(assumption) E)).
        * right. split; [|auto]. intros E. apply K1. exact (proj1 (ext_same s s' s2 ltac:(assumption) ltac:(assumption) E)) || exact (proj2 (ext_same s s' s2 ltac:(assumption) ltac:(assumption) E)).
      + destruct IH2 as (W2 & X2 & K2). split; [exact W2|]. split; [eapply ext_trans; eauto|].
        destruct K as [[K1 K]|[K1 K]].
        * destruct K2 as [[K3 K4]|[K3 K4]].
          -- left. split; [unfold same in *; congruence|]. eauto.
          -- right. split; [|eauto]. intros E. apply K3. exact (proj1 (ext_same s s' s2 ltac:(assumption) ltac:(assumption) E)) || exact (proj2 (ext_same s s' s2 ltac:(assumption) ltac:(assumption) E)).
        * right. split; [|auto]. intros E. apply K1. exact (proj1 (ext_same s s' s2 ltac:(assumption) ltac:(assumption) E)) || exact (proj2 (ext_same s s' s2 ltac:(assumption) ltac:(assumption) E)).
      + destruct K as [[K1 K]|[K1 K]]; eauto.
    - intros rule pt w e es acc en s en' s' H1 IH1 He Hs Hp Hw Hw'. cbn in He. apply andb_true_iff in He as [He1 He2].
      specialize (IH1 He1 Hs Hw). cbn [agree] in *. destruct IH1 as (W & X & K). rewrite restore_warns. split; [exact Hw'|].
      assert (E : s_errs (restore pt (set_warns w s')) = s_errs s') by (unfold restore; destruct (_ =? _); reflexivity).
      unfold ext, same in *. rewrite E. split; [exact X|].
      destruct K as [[K1 K]|[K1 K]]; [left|right]; split; auto; eapply pegs_no; eauto.
    - intros rule pt w e es acc en s m x s' H1 IH1 He Hs Hp Hw Hw'. cbn in He. apply andb_true_iff in He as [He1 He2].
      specialize (IH1 He1 Hs Hw). cbn [agree] in *. eapply pegs_no; eauto.
    - intros rule en s _ Hs Hw. cbn [agree]. split; [exact Hw|]. split; [exists []; cbn; now rewrite app_nil_r|]. left. split; [reflexivity|]. constructor.
    - intros rule e es en s v en' s' H1 IH1 He Hs Hw. cbn in He. apply andb_true_iff in He as [He1 He2].
      specialize (IH1 He1 Hs Hw). cbn [agree] in *. destruct IH1 as (W & X & K). split; [exact W|]. split; [exact X|].
      destruct K as [[K1 K]|[K1 K]]; [left|right]; split; auto; [eapply peg_choice|eapply peg_choice_abort]; eauto.
    - intros rule e es en s en' s' r H1 IH1 H2 IH2 He Hs Hw. cbn in He. apply andb_true_iff in He as [He1 He2].
      specialize (IH1 He1 Hs Hw). cbn [agree] in *. destruct IH1 as (W & X & K).
      destruct (ev_track o g data Hg _ _ _ _ _ H1 He1 Hs) as [T _]. cbn [s_pt set_warns] in IH2. rewrite T in IH2.
      specialize (IH2 He2 Hs Hw).
      assert (Abort : peg (o_ignore o) g e [] (s_pt s) PAbort -> peg (o_ignore o) g (EChoice (e :: es)) en (s_pt s) PAbort)
        by (intros; now apply peg_choice_abort).
      assert (Next : forall x, peg (o_ignore o) g e [] (s_pt s) PFail -> peg (o_ignore o) g (EChoice es) en (s_pt s) x ->
         peg (o_ignore o) g (EChoice (e :: es)) en (s_pt s) x) by (intros; now apply peg_choice_next).
      assert (X1 : forall s2, ext (set_warns (s_warns s) s') s2 -> ext s s2) by (intros s2 Z; eapply ext_trans; [exact X|exact Z]).
      assert (X2 : forall s2, ext (set_warns (s_warns s) s') s2 -> same s s2 -> same s s' /\ same s' s2).
      { intros s2 Z1 Z2. apply ext_same; auto. }
      destruct r as [v2 en2 s2|en2 s2|m2 x2 s2|]; cbn [agree] in *; auto.
      + destruct IH2 as (W2 & Y & K2). split; [exact W2|]. split; [auto|].
        destruct K as [[K1 K]|[K1 K]].
        * destruct K2 as [[K3 K4]|[K3 K4]].
          -- left. split; [unfold same in *; cbn in *; congruence|]. auto.
          -- right. split; [|auto]. intros E. apply K3. exact (proj1 (X2 s2 ltac:(assumption) E)) || exact (proj2 (X2 s2 ltac:(assumption) E)).
        * right. split; [|auto]. intros E. apply K1. exact (proj1 (X2 s2 ltac:(assumption) E)) || exact (proj2 (X2 s2 ltac:(assumption) E)).
      + destruct IH2 as (W2 & Y & K2). split; [exact W2|]. split; [auto|].
        destruct K as [[K1 K]|[K1 K]].
        * destruct K2 as [[K3 K4]|[K3 K4]].
          -- left. split; [unfold same in *; cbn in *; congruence|]. auto.
          -- right. split; [|auto]. intros E. apply K3. exact (proj1 (X2 s2 ltac:(assumption) E)) || exact (proj2 (X2 s2 ltac:(assumption) E)).
        * right. split; [|auto]. intros E. apply K1. exact (proj1 (X2 s2 ltac:(assumption) E)) || exact (proj2 (X2 s2 ltac:(assumption) E)).
      + destruct K as [[K1 K]|[K1 K]]; auto.
    - intros rule e es en s m x s' H1 IH1 He Hs Hw. cbn in He. apply andb_true_iff in He as [He1 He2].
      specialize (IH1 He1 Hs Hw). cbn [agree] in *. now apply peg_choice_abort.
    - intros rule e acc en s en' s' H1 IH1 He Hs Hw. specialize (IH1 He Hs Hw). cbn [agree] in *.
      destruct IH1 as (W & X & K). destruct (ev_track o g data Hg _ _ _ _ _ H1 He Hs) as [T _]. rewrite T.
      split; [exact W|]. split; [exact X|]. destruct K as [[K1 K]|[K1 K]]; [left|right]; split; auto.
      + split; [reflexivity|]. exists []. rewrite app_nil_r. split; [reflexivity|]. now constructor.
      + now apply pegt_abort.
    - intros rule e acc en s v en' s' r H1 IH1 H2 IH2 He Hs Hw. specialize (IH1 He Hs Hw). cbn [agree] in *.
      destruct IH1 as (W & X & K). pose proof (ev_track o g data Hg _ _ _ _ _ H1 He Hs) as T. cbn in T.
      assert (Hs' : Reach data (s_pt s')) by exact (steps_reach _ _ _ Hs T). specialize (IH2 He Hs' W).
      assert (Abort : peg (o_ignore o) g e [] (s_pt s) PAbort -> pegt (o_ignore o) g e (s_pt s) None)
        by (intros; now apply pegt_abort).
      assert (Later : peg (o_ignore o) g e [] (s_pt s) (POk v en' (s_pt s')) ->
          pegt (o_ignore o) g e (s_pt s') None -> pegt (o_ignore o) g e (s_pt s) None)
        by (intros; eapply pegt_later; eauto).
      destruct r as [v2 en2 s2|en2 s2|m2 x2 s2|]; cbn [agree] in *; auto.
      + destruct IH2 as (W2 & X2 & K2). split; [exact W2|]. split; [eapply ext_trans; eauto|].
        destruct K as [[K1 K]|[K1 K]].
        * destruct K2 as [[K3 K4]|[K3 K4]].
          -- left. split; [unfold same in *; congruence|]. destruct K4 as (-> & l & -> & K4). split; [reflexivity|].
             exists (v :: l). cbn. rewrite <- app_assoc. split; [reflexivity|]. eapply pegt_more; eauto.
          -- right. split; [|auto]. intros E. apply K3. exact (proj1 (ext_same s s' s2 ltac:(assumption) ltac:(assumption) E)) || exact (proj2 (ext_same s s' s2 ltac:(assumption) ltac:(assumption) E)).
        * right. split; [|auto]. intros E. apply K1. exact (proj1 (ext_same s s' s2 ltac:(assumption) ltac:(assumption) E)) || exact (proj2 (ext_same s s' s2 ltac:(assumption) ltac:(assumption) E)).
      + destruct IH2 as (W2 & X2 & K2). split; [exact W2|]. split; [eapply ext_trans; eauto|].
        destruct K2 as [[_ []]|[K3 K4]]. right. split; [intros E; apply K3; exact (proj2 (ext_same s s' s2 ltac:(assumption) ltac:(assumption) E))|].
        destruct K as [[K1 K]|[K1 K]]; auto.
      + destruct K as [[K1 K]|[K1 K]]; auto.
    - intros rule e acc en s m x s' H1 IH1 He Hs Hw. specialize (IH1 He Hs Hw). cbn [agree] in *. now apply pegt_abort.
  Qed.
End EvPeg.

(** ** Parse and the grammar *)
Lemma enc_ok o data : utf8_text data \/ o_invalid o = true -> forall p, Reach data p -> bad_rune (pt_rest p) && negb (o_invalid o) = false.
Proof.
  intros [H| ->] p Hp; [|now rewrite andb_false_r]. now rewrite (utf8_not_bad _ (reach_good _ _ H Hp)).
Qed.

Lemma parse_peg opts ff data :
  k_entry (config_of opts) = "init"%string -> k_max (config_of opts) = 0%N -> k_warn (config_of opts) = false ->
  utf8_text data \/ k_invalid (config_of opts) = true ->
  exists r, peg (k_ignore (config_of opts)) gen_grammar gen_init [] (start_pt data) r /\
    match r with
    | POk v _ _ => fst (parse opts ff data) = Returned v []
    | _ => forall v, fst (parse opts ff data) <> Returned v []
    end.
Proof.
  intros He Hm Hw Hu. pose proof (parse_run opts ff data) as P. rewrite He, find_init in P. destruct P as (r & R & ->).
  set (o := settings_of (config_of opts)) in *.
  assert (Ho : o_max o = None) by (subst o; cbn; now rewrite Hm).
  assert (Henc := enc_ok o data Hu).
  assert (Hi : init_st o ff data = St (start_pt data) zero_pos [] None ff [] (Pos 1 1 0) [] false 0).
  { unfold init_st. apply (check_same o data Henc). constructor. }
  rewrite Hi in R. apply init_run in R as [[K _]|[_ (r1 & R & ->)]].
  { unfold over_limit in K. rewrite Ho in K. discriminate. }
  set (s0 := started o _) in R.
  assert (E0 : s_pt s0 = start_pt data /\ s_warns s0 = Some [] /\ s_errs s0 = []) by (subst s0; auto).
  clearbody s0. destruct E0 as (E1 & E2 & E3). cbn [s_pt s_warns] in R.
  apply inv_evs_cons in R as (r2 & R & K).
  assert (A : agree (peg (o_ignore o) gen_grammar init_conf [] (start_pt data)) s0 r2).
  { rewrite <- E1. apply (proj1 (ev_peg_all o gen_grammar data gen_lits_ok Ho Hw Henc) _ _ _ _ _ R).
    - reflexivity.
    - rewrite E1. constructor.
    - exact E2. }
  change (o_ignore o) with (k_ignore (config_of opts)) in A.
  assert (Pre : forall x, pegs (k_ignore (config_of opts)) gen_grammar [init_conf] [] (start_pt data) x -> x = PFail \/ x = PAbort ->
    peg (k_ignore (config_of opts)) gen_grammar gen_init [] (start_pt data) x).
  { intros x Hx Hd. rewrite gen_init_eq. eapply peg_act_no; [|exact Hd]. eapply peg_seq_no; [|exact Hd].
    eapply pegs_later; [apply peg_state| |exact Hd]. eapply pegs_later; [apply peg_init|exact Hx|exact Hd]. }
  destruct r2 as [v2 en2 s2|en2 s2|m2 x2 s2|]; cbn [agree] in A.
  - apply inv_evs_nil in K. subst r1. destruct A as (W & X & [[A1 A2]|[A1 A2]]).
    + unfold act_out. cbn [s_warns set_cur]. rewrite W. cbn [run_action act_ret_config].
      eexists. split.
      * rewrite gen_init_eq. eapply peg_act; [|reflexivity]. apply peg_seq. eapply pegs_cons; [apply peg_state|].
        eapply pegs_cons; [apply peg_init|]. eapply pegs_cons; [exact A2|]. apply pegs_nil.
      * cbn. f_equal. rewrite A1. exact E3.
    + exists PAbort. split; [apply Pre; auto; eapply pegs_no; eauto|].
      intros v. unfold act_out. cbn [run_action]. unfold act_ret_config. cbn. intros E. injection E as _ E. apply A1. unfold same. congruence.
  - subst r1. destruct A as (W & X & A).
    assert (Z : forall v, fst (finish (config_of opts) (act_out o "init" (ARetConfig "conf")
      (tick (St (start_pt data) zero_pos [] None ff [] (Pos 1 1 0) [] false 0)) (OFail en2 (restore (start_pt data) (set_warns None s2)))) ff) <> Returned v []).
    { intros v. cbn [act_out finish fst]. destruct (s_errs (restore (start_pt data) (set_warns None s2))); discriminate. }
    destruct A as [[A1 A2]|[A1 A2]]; [exists PFail|exists PAbort]; (split; [|exact Z]); apply Pre; auto; eapply pegs_no; eauto.
  - subst r1. exists PAbort. split; [apply Pre; auto; eapply pegs_no; eauto|].
    intros v. cbn. destruct (k_recover _); [|discriminate]. intros E. injection E as _ E. destruct (s_errs s2); discriminate.
  - contradiction.
Qed.
Lemma peg_ref_ok ign g n e en p v en' q : find_rule n g = Some e -> peg ign g (ERef n) en p (POk v en' q) ->
  exists en1, peg ign g e [] p (POk v en1 q).
Proof.
  intros F H. inversion H; subst.
  - match goal with A : find_rule n g = Some _ |- _ => rewrite F in A; injection A as <- end. eauto.
  - match goal with A : _ \/ _ |- _ => destruct A; discriminate end.
Qed.
