(** Where errors and recorded failures point: invariants of runs of the parser. *)
From Coq Require Import List NArith Bool String Arith Lia.
From Verif Require Import Bytes Utf8 F64 Ast Peg Actions Engine Parser GrammarGen QuoteFacts PosFacts Run EngineFacts
  Termination Matches RunInv Sim HistFacts ParseFacts.
Import ListNotations.

(** ** Specification *)

(** The failure quotes the input: its text is a part of it, found at the
    failure's position; and its offset is the end of that part. *)
Definition quotes (data : bytes) (f : failure) : Prop :=
  f_off f = p_off (f_cpos f) + List.length (f_text f) /\
  (exists post, data = firstn (p_off (f_cpos f)) data ++ f_text f ++ post /\ f_off f + List.length post = List.length data) /\
  (true_pos data (f_cpos f) \/ (f_cpos f = zero_pos /\ f_text f = [])).

(** ** The invariant *)

Section Inv.
  Variable o : settings.
  Variable g : grammar.
  Variable data : bytes.
  Variable old : failure -> Prop.
  Hypothesis Hg : grammar_lits_ok g = true.

  Definition at_point (p : position) : Prop := exists q, Reach data q /\ p = pt_pos q.
  Definition known (rule : string) : Prop := In rule (map fst g).
  Definition err_ok (e : perror) : Prop :=
    at_point (e_pos e) /\ (forall r, e_rule e = Some r -> known r) /\
    (e_rule e = None -> e_msg e = MText (b "invalid encoding")).
  Definition cur_ok (c : position) (t : bytes) : Prop :=
    (c = zero_pos /\ t = []) \/
    (exists p q, Reach data p /\ Steps p q /\ c = pt_pos p /\ t = firstn (p_off (pt_pos q) - p_off (pt_pos p)) (pt_rest p)).
  Definition fail_ok (f : failure) : Prop :=
    old f \/ (cur_ok (f_cpos f) (f_text f) /\ f_off f = p_off (f_cpos f) + List.length (f_text f)).
  Record inv (s : st) : Prop := Inv
    { i_errs : Forall err_ok (s_errs s);
      i_ff : Forall fail_ok (s_ff s);
      i_cur : cur_ok (s_cpos s) (s_ctext s);
      i_mf : s_mfpos s = Pos 1 1 0 \/ at_point (s_mfpos s) }.

  Lemma inv_same s s' : s_errs s' = s_errs s -> s_ff s' = s_ff s -> s_cpos s' = s_cpos s -> s_ctext s' = s_ctext s ->
    s_mfpos s' = s_mfpos s -> inv s -> inv s'.
  Proof. intros E1 E2 E3 E4 E5 [A B C D]. constructor; rewrite ?E1, ?E2, ?E3, ?E4, ?E5; auto. Qed.
  Lemma inv_err rule m p s : at_point p -> (forall r, rule = Some r -> known r) ->
    (rule = None -> m = MText (b "invalid encoding")) -> inv s -> inv (add_err_at rule m p s).
  Proof.
    intros Hp Hr Hm [A B C D]. constructor; cbn; auto. apply Forall_app. split; [exact A|]. constructor; [|constructor]. split; [exact Hp|]. now split.
  Qed.
  Lemma inv_read rule s : known rule -> Reach data (s_pt s) -> pt_rest (s_pt s) <> [] -> inv s -> inv (read o (Some rule) s).
  Proof.
    intros K R N I. unfold read, check_rune. set (s1 := set_pt _ s).
    assert (I1 : inv s1) by (eapply inv_same; [..|exact I]; reflexivity).
    destruct (_ && _); [|exact I1]. apply inv_err; [|congruence|discriminate|exact I1]. exists (advance_pt (s_pt s)). split; [now apply reach_next|reflexivity].
  Qed.
  Lemma inv_fail_at x p w s : at_point p -> inv s -> inv (fail_at x p w s).
  Proof.
    intros Hp [A B C D]. unfold fail_at. destruct (Bool.eqb _ _); [|now constructor]. destruct (_ <? _); [now constructor|].
    destruct (_ <? _); constructor; cbn; auto.
  Qed.
  Lemma inv_restore p s : inv s -> inv (restore p s).
  Proof. intros I. unfold restore. destruct (_ =? _); [exact I|]. eapply inv_same; [..|exact I]; reflexivity. Qed.
  Lemma inv_warns w s : inv s -> inv (set_warns w s).
  Proof. intros I. eapply inv_same; [..|exact I]; reflexivity. Qed.
  Lemma inv_mfinv w s : inv s -> inv (set_mfinv w s).
  Proof. intros I. eapply inv_same; [..|exact I]; reflexivity. Qed.
  Lemma inv_tick s : inv s -> inv (tick s).
  Proof. intros I. eapply inv_same; [..|exact I]; reflexivity. Qed.
  Lemma inv_new m s : inv s -> fail_ok (Failure m (s_cpos s) (s_ctext s) (cur_off s)).
  Proof. intros [A B C D]. right. split; [exact C|reflexivity]. Qed.
  Lemma inv_ff l s : Forall fail_ok l -> inv s -> inv (set_ff l s).
  Proof. intros H [A B C D]. constructor; auto. Qed.
  Lemma inv_push m s : inv s -> inv (push_error m s).
  Proof.
    intros I. pose proof (inv_new m s I) as N. pose proof (i_ff s I) as F. unfold push_error.
    destruct (s_ff s) as [|f l]; [apply inv_ff; [exact (Forall_cons _ N (Forall_nil _))|exact I]|].
    destruct (_ <? _); [apply inv_ff; [exact (Forall_cons _ N (Forall_nil _))|exact I]|].
    destruct (_ =? _); [|exact I]. destruct (existsb _ _); [exact I|].
    apply inv_ff; [|exact I]. apply Forall_app. split; [exact F|exact (Forall_cons _ N (Forall_nil _))].
  Qed.

  Lemma here s : Reach data (s_pt s) -> at_point (pt_pos (s_pt s)).
  Proof. intros R. now exists (s_pt s). Qed.

  Lemma inv_lit rule want p rs en : known rule -> Reach data p -> forall s,
    forallb (fun r => negb (r =? RuneError)%N) rs = true -> Reach data (s_pt s) ->
    inv s -> out_st (lit_loop o rule want p rs en s) inv.
  Proof.
    intros K Hp. induction rs as [|r rs IH]; intros s Hr Hs I; cbn [lit_loop].
    - cbn. apply inv_fail_at; [now exists p|exact I].
    - cbn in Hr. apply andb_true_iff in Hr as [Hr1 Hr2].
      destruct (N.eqb_spec (fst (decode_rune (pt_rest (s_pt s)))) r) as [E|E].
      + assert (Hn : pt_rest (s_pt s) <> []).
        { apply decode_nonempty. rewrite E. apply negb_true_iff, N.eqb_neq in Hr1. exact Hr1. }
        apply IH; rewrite ?read_pt; auto using reach_next. now apply inv_read.
      + cbn. apply inv_restore, inv_fail_at; [now exists p|exact I].
  Qed.
  Lemma inv_prim rule e en s r : known rule ->
    lits_ok e = true -> Reach data (s_pt s) -> prim_out o g rule e en s = Some r -> inv s -> out_st r inv.
  Proof.
    intros K He Hs H I. destruct e; cbn [prim_out] in H; try discriminate H; try (injection H as <-).
    - destruct p; cbn.
      + apply inv_ff; [constructor|exact I].
      + now apply inv_push.
      + apply inv_ff; [|exact I]. constructor; [|constructor]. now apply inv_new.
    - cbn. destruct c; cbn.
      + destruct (s_warns s); [exact I|]. now apply inv_warns.
      + destruct (_ && _); [now apply inv_warns|exact I].
    - destruct (at_eof s) eqn:E; cbn; apply inv_fail_at; auto using here.
      apply inv_read; auto. rewrite <- at_eof_spec. congruence.
    - destruct (at_eof s) eqn:E; cbn; [apply inv_fail_at; auto using here|].
      destruct (class_match _ _ _ _); cbn; apply inv_fail_at; auto using here.
      apply inv_read; auto. rewrite <- at_eof_spec. congruence.
    - now apply inv_lit.
    - destruct (find_rule name g); [discriminate|]. injection H as <-. cbn.
      apply inv_err; [now apply here|congruence|discriminate|exact I].
  Qed.

  (** What an aborted run reports *)
  Definition final (r : out) : Prop :=
    out_st r inv /\ match r with OPanic _ x s => known x /\ Reach data (s_pt s) | _ => True end.

  Lemma inv_all :
    (forall rule e en s r, ev o g rule e en s r -> known rule -> lits_ok e = true -> Reach data (s_pt s) -> inv s -> final r) /\
    (forall rule pt w es acc en s r, evs o g rule pt w es acc en s r -> known rule -> forallb lits_ok es = true ->
       Reach data (s_pt s) -> inv s -> final r) /\
    (forall rule es en s r, evc o g rule es en s r -> known rule -> forallb lits_ok es = true -> Reach data (s_pt s) -> inv s -> final r) /\
    (forall rule e acc en s r, evt o g rule e acc en s r -> known rule -> lits_ok e = true -> Reach data (s_pt s) -> inv s -> final r).
  Proof.
    apply ev_mutind.
    - intros rule e en s L K He Hs I. split; cbn; [now apply inv_tick|now split].
    - intros rule e en s r L P K He Hs I. split; [apply (inv_prim rule e en (tick s)); auto using inv_tick|].
      pose proof (track_prim o g data rule e en (tick s) r He Hs P) as T. destruct r as [| |m x s'|]; auto.
      split; [|cbn in T; eapply steps_reach; [exact Hs|exact T]].
      destruct e; cbn [prim_out] in P; try discriminate P; try (injection P as P).
      + destruct p; cbn in P; try discriminate P. injection P as _ <- _. exact K.
      + destruct (at_eof _); discriminate P.
      + destruct (_ && _); discriminate P.
      + exfalso. clear -P. revert P. generalize (s_pt (tick s)). generalize (tick s). intros s0 p. revert s0. induction runes as [|c rs IH]; intros s0; cbn; [discriminate|].
        destruct (_ =? _)%N; [apply IH|discriminate].
      + destruct (find_rule name g); discriminate P.
    - intros rule a e en s r L H IH K He Hs I. specialize (IH K He Hs (inv_tick _ I)).
      pose proof (ev_track o g data Hg _ _ _ _ _ H He Hs) as T.
      destruct r as [v en' s'|en' s'|m x s'|]; cbn [act_out]; auto. destruct IH as [IH _]. cbn in IH, T.
      assert (I2 : inv (set_cur (pt_pos (s_pt (tick s))) (slice_from (s_pt (tick s)) s') s')).
      { destruct IH as [A B C D]. constructor; auto. right. exists (s_pt s), (s_pt s'). repeat split; auto. }
      destruct (run_action _ _ _ _ _ _); (split; [cbn|cbn; auto]); auto.
      + apply inv_err; [exact (here _ Hs)|congruence|discriminate|exact I2].
      + split; [exact K|]. eapply steps_reach; eauto.
    - intros rule l e en s r L H IH K He Hs I. specialize (IH K He Hs (inv_tick _ I)). destruct r; exact IH.
    - intros rule e en s r L H IH K He Hs I. specialize (IH K He Hs (inv_mfinv _ _ (inv_tick _ I))).
      destruct r as [v en' s'|en' s'|m x s'|]; unfold not_out; auto; destruct IH as [IH _]; (split; [|exact Logic.I]);
      apply inv_restore, inv_warns, inv_mfinv; exact IH.
    - intros rule e en s r L H IH K He Hs I. specialize (IH K He Hs (inv_tick _ I)). destruct r; exact IH.
    - intros rule name e en s r L F H IH K _ Hs I.
      assert (He : lits_ok e = true /\ known name).
      { apply find_rule_in in F. unfold grammar_lits_ok in Hg. rewrite forallb_forall in Hg. split; [exact (Hg _ F)|].
        unfold known. apply in_map_iff. now exists (name, e). }
      destruct He as [He Kn]. specialize (IH Kn He Hs (inv_tick _ I)). destruct r; exact IH.
    - intros rule es en s r L H IH K He Hs I. exact (IH K He Hs (inv_tick _ I)).
    - intros rule es en s r L H IH K He Hs I. exact (IH K He Hs (inv_tick _ I)).
    - intros rule e en s r L H IH K He Hs I. exact (IH K He Hs (inv_tick _ I)).
    - intros rule e en s r L H IH K He Hs I. specialize (IH K He Hs (inv_tick _ I)).
      destruct r as [v en' s'|en' s'|m x s'|]; auto. cbn. destruct v; auto. destruct l; auto.
    - intros rule pt w acc en s K He Hs I. split; [exact I|exact Logic.I].
    - intros rule pt w e es acc en s v en' s' r H1 IH1 _ IH2 K He Hs I. cbn in He. apply andb_true_iff in He as [He1 He2].
      pose proof (ev_track o g data Hg _ _ _ _ _ H1 He1 Hs) as T. destruct (IH1 K He1 Hs I) as [I1 _].
      apply IH2; auto. eapply steps_reach; eauto.
    - intros rule pt w e es acc en s en' s' _ IH K He Hs I. cbn in He. apply andb_true_iff in He as [He1 He2].
      destruct (IH K He1 Hs I) as [I1 _]. split; [|exact Logic.I]. apply inv_restore, inv_warns. exact I1.
    - intros rule pt w e es acc en s m x s' _ IH K He Hs I. cbn in He. apply andb_true_iff in He as [He1 He2]. auto.
    - intros rule en s K He Hs I. split; [exact I|exact Logic.I].
    - intros rule e es en s v en' s' _ IH K He Hs I. cbn in He. apply andb_true_iff in He as [He1 He2]. exact (IH K He1 Hs I).
    - intros rule e es en s en' s' r H1 IH1 _ IH2 K He Hs I. cbn in He. apply andb_true_iff in He as [He1 He2].
      destruct (IH1 K He1 Hs I) as [I1 _]. apply IH2; auto; [|now apply inv_warns].
      destruct (ev_track o g data Hg _ _ _ _ _ H1 He1 Hs) as [T _]. cbn. now rewrite T.
    - intros rule e es en s m x s' _ IH K He Hs I. cbn in He. apply andb_true_iff in He as [He1 He2]. auto.
    - intros rule e acc en s en' s' _ IH K He Hs I. exact (IH K He Hs I).
    - intros rule e acc en s v en' s' r H1 IH1 _ IH2 K He Hs I. destruct (IH1 K He Hs I) as [I1 _].
      pose proof (ev_track o g data Hg _ _ _ _ _ H1 He Hs) as T. apply IH2; auto. eapply steps_reach; eauto.
    - intros rule e acc en s m x s' _ IH K He Hs I. auto.
  Qed.
End Inv.

(** ** The lookahead flag *)

Section Flag.
  Variable o : settings.
  Variable g : grammar.
  Definition keeps (s : st) (r : out) : Prop :=
    match r with OOk _ _ s' | OFail _ s' => s_mfinv s' = s_mfinv s | _ => True end.
  Lemma read_mfinv rule s : s_mfinv (read o rule s) = s_mfinv s.
  Proof. apply read_cases; reflexivity. Qed.
  Lemma fail_at_mfinv x p w s : s_mfinv (fail_at x p w s) = s_mfinv s.
  Proof. unfold fail_at. destruct (Bool.eqb _ _); [|reflexivity]. destruct (_ <? _); [reflexivity|]. now destruct (_ <? _). Qed.
  Lemma restore_mfinv p s : s_mfinv (restore p s) = s_mfinv s.
  Proof. unfold restore. now destruct (_ =? _). Qed.
  Lemma push_mfinv m s : s_mfinv (push_error m s) = s_mfinv s.
  Proof.
    unfold push_error. destruct (s_ff s); [reflexivity|]. destruct (_ <? _); [reflexivity|].
    destruct (_ =? _); [|reflexivity]. now destruct (existsb _ _).
  Qed.
  Lemma restore_mfpos p s : s_mfpos (restore p s) = s_mfpos s.
  Proof. unfold restore. now destruct (_ =? _). Qed.
  Lemma restore_mfexp p s : s_mfexp (restore p s) = s_mfexp s.
  Proof. unfold restore. now destruct (_ =? _). Qed.
  Lemma lit_mfinv rule want p rs en : forall s, keeps s (lit_loop o rule want p rs en s).
  Proof.
    induction rs as [|r rs IH]; intros s; cbn [lit_loop].
    - cbn. apply fail_at_mfinv.
    - destruct (_ =? r)%N; [|cbn; now rewrite restore_mfinv, fail_at_mfinv].
      specialize (IH (read o (Some rule) s)). destruct (lit_loop _ _ _ _ _ _ _); cbn in *; auto; now rewrite IH, read_mfinv.
  Qed.
  Lemma prim_mfinv rule e en s r : prim_out o g rule e en s = Some r -> keeps s r.
  Proof.
    intros H. destruct e; cbn [prim_out] in H; try discriminate H; try (injection H as <-).
    - destruct p; cbn; auto. apply push_mfinv.
    - destruct c; cbn; [destruct (s_warns s)|destruct (_ && _)]; reflexivity.
    - destruct (at_eof s); cbn; now rewrite fail_at_mfinv, ?read_mfinv.
    - destruct (_ && _); cbn; now rewrite fail_at_mfinv, ?read_mfinv.
    - apply lit_mfinv.
    - destruct (find_rule name g); [discriminate|]. injection H as <-. reflexivity.
  Qed.
  Lemma mfinv_all :
    (forall rule e en s r, ev o g rule e en s r -> keeps s r) /\
    (forall rule pt w es acc en s r, evs o g rule pt w es acc en s r -> keeps s r) /\
    (forall rule es en s r, evc o g rule es en s r -> keeps s r) /\
    (forall rule e acc en s r, evt o g rule e acc en s r -> keeps s r).
  Proof.
    apply ev_mutind; try (intros; exact I); try (intros; reflexivity); try (intros; assumption).
    - intros rule e en s r _ P. exact (prim_mfinv _ _ _ _ _ P).
    - intros rule a e en s r _ _ IH. destruct r; cbn in *; auto. destruct (run_action _ _ _ _ _ _); exact IH || exact I.
    - intros rule l e en s r _ _ IH. destruct r; exact IH.
    - intros rule e en s r _ _ IH. destruct r; cbn in *; auto; rewrite restore_mfinv; cbn; rewrite IH; apply negb_involutive.
    - intros rule e en s r _ _ IH. destruct r; exact IH.
    - intros rule n e en s r _ _ _ IH. destruct r; exact IH.
    - intros rule e en s r _ _ IH. destruct r as [v| | |]; cbn; auto. destruct v; auto. destruct l; exact IH.
    - intros rule pt w e es acc en s v en' s' r _ IH1 _ IH2. destruct r; cbn in *; auto; congruence.
    - intros rule pt w e es acc en s en' s' _ IH. cbn in *. now rewrite restore_mfinv.
    - intros rule e es en s en' s' r _ IH1 _ IH2. destruct r; cbn in *; auto; congruence.
    - intros rule e acc en s v en' s' r _ IH1 _ IH2. destruct r; cbn in *; auto; congruence.
  Qed.
End Flag.

(** ** The no-match error of the default entry point *)

Definition init_alt1 : expr := match init_conf with ELab _ (EChoice [e; _]) => e | _ => EAny end.
Definition init_gap : expr :=
  match init_conf with ELab _ (EChoice [_; EAct _ (ESeq [EStar e; _])]) => e | _ => EAny end.
Definition ws_class : expr := EClass "[ \t\r\n]" [32; 9; 13; 10]%N [] false.
Definition gap_comment : expr := match init_gap with EChoice [e; _] => e | _ => EAny end.
Lemma init_conf_eq : init_conf =
  ELab "conf" (EChoice [init_alt1; EAct AEmptyConfig (ESeq [EStar init_gap; ENot EAny])]).
Proof. reflexivity. Qed.
Lemma init_gap_eq : init_gap = EChoice [gap_comment; EAct AWhitespace (EPlus ws_class)].
Proof. reflexivity. Qed.

Lemma evt_longer o g rule e acc en s r : evt o g rule e acc en s r ->
  match r with OOk (VList l) _ _ => List.length acc <= List.length l | _ => True end.
Proof.
  induction 1; auto.
  - now rewrite rev_length.
  - destruct r as [v2| | |]; auto. destruct v2; auto. cbn in IHevt. lia.
Qed.

Section NoMatch.
  Variable o : settings.
  Variable data : bytes.
  Definition starts_nl : Prop := exists rest, data = NL :: rest.
  Notation g := gen_grammar.

  Lemma start_nl s : starts_nl -> s_pt s = start_pt data -> at_eof s = false /\ fst (decode_rune (pt_rest (s_pt s))) = NL.
  Proof.
    intros [rest E] H. rewrite H, start_rest.
    split; [|rewrite E; reflexivity]. destruct (at_eof s) eqn:A; [|reflexivity].
    apply at_eof_spec in A. rewrite H, start_rest, E in A. discriminate.
  Qed.

  (** The gap is not empty there *)
  Lemma gap_nl rule en s en' s' : starts_nl -> s_pt s = start_pt data -> ~ ev o g rule init_gap en s (OFail en' s').
  Proof.
    intros Hnl Hp H. rewrite init_gap_eq in H.
    apply inv_choice in H as [[_ H]|[_ H]]; [discriminate|].
    apply inv_evc_cons in H as (r1 & H1 & H). destruct r1 as [v1 en1 s1|en1 s1|m x s1|]; try discriminate H.
    assert (P1 : s_pt s1 = start_pt data).
    { assert (R : Reach data (s_pt (tick s))) by (cbn; rewrite Hp; constructor).
      destruct (ev_track o g data gen_lits_ok _ _ _ _ _ H1 eq_refl R) as [T _]. now rewrite T. }
    apply inv_evc_cons in H as (r2 & H2 & H). destruct r2 as [v2 en2 s2|en2 s2|m x s2|]; try discriminate H.
    apply inv_act in H2 as [[_ H2]|[_ (r3 & H3 & H2)]]; [discriminate|].
    destruct r3 as [v3 en3 s3|en3 s3|m x s3|]; cbn in H2; try discriminate H2.
    apply inv_plus in H3 as [[_ H3]|[_ (r4 & H4 & H3)]]; [discriminate|].
    apply inv_evt in H4 as (r5 & H5 & H4). unfold ws_class in H5.
    apply RunInv.inv_prim with (r1 := OOk (VBytes (slice_from (s_pt (set_warns (s_warns (tick s)) s1))
      (fail_at true (pt_pos (s_pt s1)) "[ \t\r\n]" (read o (Some rule) (tick (tick (tick (set_warns (s_warns (tick s)) s1)))))))) []
      (fail_at true (pt_pos (s_pt s1)) "[ \t\r\n]" (read o (Some rule) (tick (tick (tick (set_warns (s_warns (tick s)) s1))))))) in H5.
    2: { cbn [prim_out]. destruct (start_nl (tick (tick (tick (set_warns (s_warns (tick s)) s1)))) Hnl P1) as [-> ->]. reflexivity. }
    destruct H5 as [[_ ->]|[_ ->]]; cbn beta iota in H4.
    - subst r4. discriminate H3.
    - pose proof (evt_not_fail _ _ _ _ _ _ _ _ H4) as Q2. apply evt_longer in H4.
      destruct r4 as [v4 en4 s4|en4 s4|m x s4|]; cbn in H3; try discriminate H3; [|contradiction].
      destruct Q2 as [_ [l ->]]. destruct l; [cbn in H4; lia|discriminate H3].
  Qed.

  (** After the end of input was tested and not found, the position of the
      no-match error is at least there. *)
  Lemma not_any_fails rule en s en' s' : s_mfinv s = false -> ev o g rule (ENot EAny) en s (OFail en' s') ->
    p_off (pt_pos (s_pt s)) <= p_off (s_mfpos s') /\ (s_mfexp s' <> [] \/ 0 < p_off (s_mfpos s')).
  Proof.
    intros Hm H. apply inv_not in H as [[_ H]|[_ (r & H & E)]]; [discriminate|].
    destruct r as [v1 en1 s1|en1 s1|m x s1|]; try discriminate E.
    assert (E2 : s_mfpos s' = s_mfpos s1 /\ s_mfexp s' = s_mfexp s1).
    { unfold not_out in E. injection E as _ ->. now rewrite restore_mfpos, restore_mfexp. }
    destruct E2 as [-> ->]. set (t := set_mfinv (negb (s_mfinv (tick s))) (tick s)) in *.
    eapply RunInv.inv_prim in H; [|reflexivity]. destruct H as [[_ H]|[_ H]]; [discriminate|].
    destruct (at_eof (tick t)); [discriminate H|]. injection H as _ _ ->.
    unfold fail_at. rewrite read_mfinv. replace (s_mfinv (tick t)) with true by (cbn; now rewrite Hm). cbn [Bool.eqb].
    set (t2 := read o (Some rule) (tick t)). change (pt_pos (s_pt (tick t))) with (pt_pos (s_pt s)).
    destruct (Nat.ltb_spec (p_off (pt_pos (s_pt s))) (p_off (s_mfpos t2))); [split; [lia|right; lia]|].
    destruct (Nat.ltb_spec (p_off (s_mfpos t2)) (p_off (pt_pos (s_pt s)))); cbn; (split; [lia|left]); [discriminate|].
    destruct (s_mfexp t2); discriminate.
  Qed.

  Lemma init_no_match ff en s : ev o g "init" gen_init [] (init_st o ff data) (OFail en s) ->
    (starts_nl -> 0 < p_off (s_mfpos s)) /\ (s_mfexp s <> [] \/ 0 < p_off (s_mfpos s)).
  Proof.
    intros H. apply init_run in H as [[_ (s' & H & _)]|[_ (r1 & H & E)]]; [discriminate|].
    destruct r1 as [v1 en1 s1|en1 s1|m x s1|]; cbn in E; try discriminate E.
    injection E as -> ->.
    assert (Sp : s_pt (started o (init_st o ff data)) = start_pt data /\ s_mfinv (started o (init_st o ff data)) = false).
    { unfold started, init_st, check_rune. cbn. destruct (_ && _); cbn; auto. }
    destruct Sp as [Sp Sm]. set (s0 := started o (init_st o ff data)) in *. clearbody s0.
    apply inv_evs_cons in H as (r & H & E). destruct r as [v2 en2 s2|en2 s2|m x s2|]; try discriminate E.
    { apply inv_evs_nil in E. discriminate E. }
    injection E as -> ->. rewrite restore_mfpos, restore_mfexp. cbn [s_mfpos s_mfexp set_warns].
    rewrite init_conf_eq in H. apply inv_lab in H as [[_ H]|[_ (r & H & E)]]; [discriminate|].
    destruct r as [v3 en3 s3|en3 s3|m x s3|]; cbn in E; try discriminate E. injection E as -> ->.
    apply inv_choice in H as [[_ H]|[_ H]]; [discriminate|].
    assert (R0 : Reach data (s_pt (tick (tick s0)))) by (cbn; rewrite Sp; constructor).
    apply inv_evc_cons in H as (r & H & E). destruct r as [v4 en4 s4|en4 s4|m x s4|]; try discriminate E.
    pose proof (proj1 (mfinv_all o g) _ _ _ _ _ H) as M4. cbn in M4.
    destruct (ev_track o g data gen_lits_ok _ _ _ _ _ H eq_refl R0) as [T4 _]. clear H.
    apply inv_evc_cons in E as (r & H & E). destruct r as [v5 en5 s5|en5 s5|m x s5|]; try discriminate E.
    apply inv_evc_nil in E. injection E as -> ->. cbn [s_mfpos s_mfexp set_warns].
    apply inv_act in H as [[_ H]|[_ (r & H & E)]]; [discriminate|].
    destruct r as [v6 en6 s6|en6 s6|m x s6|]; cbn in E; try discriminate E. injection E as -> ->.
    apply inv_seq in H as [[_ H]|[_ H]]; [discriminate|].
    set (t := tick (tick (set_warns (s_warns (tick (tick s0))) s4))) in *.
    assert (Rt : s_pt t = start_pt data) by (cbn; rewrite T4; exact Sp).
    apply inv_evs_cons in H as (r & H & E). destruct r as [v7 en7 s7|en7 s7|m x s7|]; try discriminate E.
    2: { apply inv_star in H as [[_ H]|[_ H]]; [discriminate|]. now apply evt_not_fail in H. }
    pose proof (proj1 (mfinv_all o g) _ _ _ _ _ H) as M7. cbn in M7.
    assert (O7 : starts_nl -> 0 < p_off (pt_pos (s_pt s7))).
    { intros Hnl. apply inv_star in H as [[_ H]|[_ H]]; [discriminate|].
      apply inv_evt in H as (r & H & E7).
      destruct r as [v8 en8 s8|en8 s8|m x s8|]; try discriminate E7.
      2: { exfalso. eapply gap_nl; [exact Hnl| |exact H]. exact Rt. }
      assert (Rt2 : Reach data (s_pt (tick t))) by (cbn; rewrite T4; exact R0).
      pose proof (ev_progress o g data (fun _ => true) gen_lits_ok ltac:(discriminate) _ _ _ _ _ _ _ H eq_refl Rt2 eq_refl) as P8.
      pose proof (ev_track o g data gen_lits_ok _ _ _ _ _ H eq_refl Rt2) as T8. cbn in T8.
      assert (R8 : Reach data (s_pt s8)) by (eapply steps_reach; eauto).
      pose proof (proj2 (proj2 (proj2 (progress_all o g data (fun _ => true) gen_lits_ok ltac:(discriminate)))) _ _ _ _ _ _ E7 eq_refl R8) as [Q _].
      apply steps_off in Q. cbn in P8. lia. }
    apply inv_evs_cons in E as (r & H9 & E). destruct r as [v9 en9 s9|en9 s9|m x s9|]; try discriminate E.
    { apply inv_evs_nil in E. discriminate E. }
    injection E as -> ->. rewrite restore_mfpos, restore_mfexp. cbn [s_mfpos s_mfexp set_warns].
    apply not_any_fails in H9; [|now rewrite M7, M4]. destruct H9 as [H9 H10]. split; [|exact H10]. intros Hnl. specialize (O7 Hnl). lia.
  Qed.
End NoMatch.

(** ** Whole parses *)

Lemma decode_nl s : fst (decode_rune s) = NL -> exists rest, s = NL :: rest.
Proof.
  destruct s as [|c s]; [discriminate|]. intros H. exists s. f_equal. revert H.
  cbn [decode_rune]. destruct (c <? 128)%N eqn:E; [auto|]. apply N.ltb_ge in E. intros H. exfalso. revert H.
  unfold in_range, cont in *.
  repeat match goal with
  | |- context [if ?x then _ else _] => let F := fresh "F" in destruct x eqn:F
  | |- context [match ?x with [] => _ | _ :: _ => _ end] => destruct x
  end; cbn [fst]; unfold RuneError, NL;
  repeat match goal with
  | H : _ && _ = true |- _ => apply andb_true_iff in H as [? ?]
  | H : (_ <=? _)%N = true |- _ => apply N.leb_le in H
  | H : (_ =? _)%N = true |- _ => apply N.eqb_eq in H
  | H : (_ =? _)%N = false |- _ => apply N.eqb_neq in H
  end; try lia.
Qed.

Lemma cur_quotes data c t m : cur_ok data c t -> quotes data (Failure m c t (p_off c + List.length t)).
Proof.
  intros [[-> ->]|(p & q & R & S & -> & ->)]; unfold quotes; cbn [f_off f_cpos f_text].
  - split; [reflexivity|]. split; [|right; auto]. exists data. now split.
  - pose proof (reach_rest _ _ R) as E. pose proof (steps_rest _ _ S) as [E2 _]. unfold seg in E2.
    pose proof (reach_len _ _ R) as L. set (t := firstn _ (pt_rest p)) in *.
    split; [reflexivity|]. split; [|left; now apply reach_true_pos].
    exists (pt_rest q). assert (E3 : data = firstn (p_off (pt_pos p)) data ++ t ++ pt_rest q).
    { rewrite <- E2, E. symmetry. apply firstn_skipn. }
    split; [exact E3|]. rewrite E2, app_length in L. lia.
Qed.

Lemma known_rule n e : find_rule n gen_grammar = Some e -> known gen_grammar n.
Proof. intros F. apply find_rule_in in F. unfold known. apply in_map_iff. now exists (n, e). Qed.

Lemma parse_final opts ff data e : find_rule (k_entry (config_of opts)) gen_grammar = Some e ->
  let o := settings_of (config_of opts) in
  exists r, ev o gen_grammar (k_entry (config_of opts)) e [] (init_st o ff data) r /\
    parse opts ff data = finish (config_of opts) r ff /\ final gen_grammar data (fun f => In f ff) r.
Proof.
  intros F o. pose proof (parse_run opts ff data) as P. rewrite F in P. destruct P as (r & R & E).
  exists r. split; [exact R|]. split; [exact E|].
  apply (proj1 (inv_all o gen_grammar data (fun f => In f ff) gen_lits_ok)) in R; auto.
  - eapply known_rule. exact F.
  - exact (forallb_rule _ _ gen_lits_ok F).
  - unfold init_st, check_rune. destruct (_ && _); constructor.
  - assert (I : inv gen_grammar data (fun f => In f ff) (St (start_pt data) zero_pos [] None ff [] (Pos 1 1 0) [] false 0)).
    { constructor; cbn; auto; [|now left; split]. apply Forall_forall. intros f Hf. now left. }
    unfold init_st, check_rune. destruct (_ && _); [|exact I]. apply inv_err; [|discriminate|reflexivity|exact I].
    exists (start_pt data). split; [constructor|reflexivity].
Qed.

Lemma parse_record opts ff data f : In f (snd (parse opts ff data)) -> In f ff \/ quotes data f.
Proof.
  intros H. destruct (find_rule (k_entry (config_of opts)) gen_grammar) as [e|] eqn:F.
  2: { pose proof (parse_run opts ff data) as P. rewrite F in P. rewrite P in H. now left. }
  destruct (parse_final opts ff data e F) as (r & R & E & [I _]). rewrite E in H.
  assert (K : forall s, inv gen_grammar data (fun f => In f ff) s -> In f (s_ff s) -> In f ff \/ quotes data f).
  { intros s [_ B _ _] Hf. rewrite Forall_forall in B. destruct (B f Hf) as [Q|[Q Eo]]; [now left|right].
    destruct f as [m c t n]. cbn in Q, Eo. subst n. now apply cur_quotes. }
  destruct r as [v en s|en s|m x s|]; cbn in H, I; eauto.
Qed.

Lemma parse_errors opts ff data v errs ff' e : In (k_entry (config_of opts)) (map fst gen_grammar) ->
  parse opts ff data = (Returned v errs, ff') -> In e errs ->
  (true_pos data (e_pos e) \/ (e_pos e = Pos 1 1 0 /\ (exists rest, data = NL :: rest) /\ k_entry (config_of opts) <> "init"%string)) /\
  (forall r, e_rule e = Some r -> In r (map fst gen_grammar)).
Proof.
  intros He P H. destruct (find_rule (k_entry (config_of opts)) gen_grammar) as [x|] eqn:F.
  2: { exfalso. clear -He F. revert He F. induction gen_grammar as [|[n y] g IH]; cbn; [auto|].
       destruct (String.eqb_spec n (k_entry (config_of opts))); [discriminate|]. intros [Q|Q]; auto. }
  destruct (parse_final opts ff data x F) as (r & R & E & [I Q]). rewrite E in P.
  assert (T : forall p, at_point data p -> true_pos data p) by (intros p (q & Rq & ->); now apply reach_true_pos).
  assert (K : forall s, inv gen_grammar data (fun f => In f ff) s -> In e (s_errs s) ->
    true_pos data (e_pos e) /\ (forall r, e_rule e = Some r -> In r (map fst gen_grammar))).
  { intros s [A _ _ _] Hf. rewrite Forall_forall in A. destruct (A e Hf) as (A1 & A2 & _). auto. }
  destruct r as [v1 en s|en s|m y s|]; cbn in P, I; try discriminate P.
  - injection P as _ <- _. destruct (K s I H) as [K1 K2]. auto.
  - injection P as _ <- _. destruct (s_errs s) as [|e0 l] eqn:Es.
    + destruct H as [<-|[]]. cbn. split; [|discriminate].
      destruct (i_mf _ _ _ _ I) as [M|M]; [|left; auto].
      assert (Z : fst (decode_rune data) <> NL -> true_pos data (Pos 1 1 0)).
      { intros N. replace (Pos 1 1 0) with (pt_pos (start_pt data)); [apply reach_true_pos; constructor|].
        unfold start_pt. apply N.eqb_neq in N. now rewrite N. }
      rewrite M. destruct (N.eq_dec (fst (decode_rune data)) NL) as [D|D]; [|left; now apply Z].
      assert (Hd : exists rest, data = NL :: rest).
      { apply decode_nl in D. exact D. }
      right. split; [reflexivity|]. split; [exact Hd|].
      intros Hi. rewrite Hi in R, F. rewrite find_init in F. injection F as <-.
      apply init_no_match in R as [R _]. specialize (R Hd). rewrite M in R. cbn in R. lia.
    + rewrite <- Es in H. destruct (K s I H) as [K1 K2]. auto.
  - destruct (k_recover _); [|discriminate P]. injection P as _ <- _. apply in_app_iff in H as [H|[<-|[]]].
    + destruct (K s I H) as [K1 K2]. auto.
    + destruct Q as [Q1 Q2]. cbn. split; [left; now apply reach_true_pos|]. intros r [= <-]. exact Q1.
Qed.
Lemma history_record history f : In f (record_after history) ->
  exists opts data, In (opts, data) history /\ quotes data f.
Proof.
  unfold record_after. assert (G : forall ff, In f (fold_left (fun ff x => snd (parse (fst x) ff (snd x))) history ff) ->
    In f ff \/ exists opts data, In (opts, data) history /\ quotes data f).
  { induction history as [|[opts data] h IH]; intros ff H; [now left|]. apply IH in H as [H|(o & d & H & Q)].
    - apply parse_record in H as [H|H]; [now left|right]. exists opts, data. split; [now left|exact H].
    - right. exists o, d. split; [now right|exact Q]. }
  intros H. apply G in H as [[]|H]. exact H.
Qed.
