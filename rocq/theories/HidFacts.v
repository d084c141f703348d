(** Successful runs with the list of the gaps whose comments are not stored, and the
    warnings they give. *)
From Coq Require Import List NArith Bool String Arith Lia.
From Verif Require Import Bytes Utf8 F64 Ast Peg Actions Engine Parser GrammarGen PosFacts Run EngineFacts Termination Matches
  RunInv HistFacts Sim ParseFacts InputFacts PegSem PegFacts Sound WarnFacts.
Import ListNotations.
Notation hid := (position * bytes)%type.

(** As [placed] of WarnFacts.v, and the text of an expression is kept only where
    the block warnComment follows. *)
Fixpoint placed' (e : expr) : bool :=
  match e with
  | EAct AStr _ => false
  | EAct _ e | ELab _ e | ENot e | EPlus e | EStar e | EOpt e => placed' e
  | EChoice l => forallb placed' l
  | ESeq l =>
      (fix go (l : list expr) : bool :=
         match l with
         | [] => true
         | EAct AStr x :: (EStateCode SWarnComment :: l') => quiet x && placed' x && go l'
         | e :: l' => placed' e && go l'
         end) l
  | EStateCode SWarnComment => false
  | _ => true
  end.
Definition placed_seq' (l : list expr) : bool := placed' (ESeq l).
Lemma placed_seq_cons' e l : placed_seq' (e :: l) = true ->
  (placed' e = true /\ placed_seq' l = true) \/
  (exists x l', e = EAct AStr x /\ l = EStateCode SWarnComment :: l' /\ quiet x = true /\ placed' x = true /\ placed_seq' l' = true).
Proof.
  unfold placed_seq'. destruct e as [a e| | | | | | | | | | | | |]; try (intros H; left; apply andb_true_iff; exact H).
  destruct a; try (intros H; left; apply andb_true_iff; exact H).
  destruct l as [|e2 l]; try (intros H; left; apply andb_true_iff; exact H).
  destruct e2 as [| |c| | | | | | | | | | |]; try (intros H; left; apply andb_true_iff; exact H).
  destruct c; try (intros H; left; apply andb_true_iff; exact H).
  intros H. right. cbn in H. apply andb_true_iff in H as [H1 H2]. apply andb_true_iff in H1 as [H0 H1]. eauto 8.
Qed.
Lemma gen_placed' : forallb (fun x => placed' (snd x)) gen_grammar = true.
Proof. vm_compute. reflexivity. Qed.

(** ** Derivations with an invariant for each rule and the hidden gaps *)
Section Okh.
  Variable ign : bool.
  Variable g : grammar.
  Variable data : bytes.
  Variable T : string -> point -> val -> point -> list hid -> Prop.

  Inductive okh : expr -> env -> point -> val -> env -> point -> list hid -> Prop :=
  | okh_act a e en p v0 en' q v hs :
      okh e en p v0 en' q hs -> (exists en2, peg ign g (EAct a e) en p (POk v en2 q)) ->
      matches g e (seg p q) -> Reach data p -> Steps p q ->
      run_action ign (Some []) a en' (pt_pos p) (seg p q) = RVal v ->
      okh (EAct a e) en p v en' q (match a with AStr => [(pt_pos p, seg p q)] | _ => hs end)
  | okh_state c en p : okh (EStateCode c) en p VNil en p []
  | okh_init en p : okh (EAndCode PInitParser) en p VNil en p []
  | okh_any en p v q : Steps p q -> okh EAny en p v en q []
  | okh_class w cs rs inv en p v q : Steps p q -> okh (EClass w cs rs inv) en p v en q []
  | okh_lit w rs en p v q : Steps p q -> lit_text rs (seg p q) -> okh (ELit w rs) en p v en q []
  | okh_lab l e en p v en' q hs : okh e [] p v en' q hs -> okh (ELab l e) en p v (bind l v en) q hs
  | okh_not e en p : okh (ENot e) en p VNil en p []
  | okh_opt e en p v en' q hs : okh e [] p v en' q hs -> okh (EOpt e) en p v en q hs
  | okh_opt_none e en p : okh (EOpt e) en p VNil en p []
  | okh_ref n en p v q hs : Steps p q -> Reach data p -> T n p v q hs -> okh (ERef n) en p v en q hs
  | okh_seq es en p l en' q hs : okhs es en p l en' q hs -> okh (ESeq es) en p (VList l) en' q hs
  | okh_choice e es en p v en' q hs : okh e [] p v en' q hs -> okh (EChoice (e :: es)) en p v en q hs
  | okh_choice_next e es en p v en' q hs : okh (EChoice es) en p v en' q hs -> okh (EChoice (e :: es)) en p v en' q hs
  | okh_star e en p l q hs : okht e p l q hs -> Reach data p -> (exists en2, peg ign g (EStar e) en p (POk (VList l) en2 q)) -> okh (EStar e) en p (VList l) en q hs
  | okh_plus e en p v l q hs : okht e p (v :: l) q hs -> okh (EPlus e) en p (VList (v :: l)) en q hs
  with okhs : list expr -> env -> point -> list val -> env -> point -> list hid -> Prop :=
  | okhs_nil en p : okhs [] en p [] en p []
  | okhs_cons e es en p v en1 q1 h1 l en' q h2 :
      okh e en p v en1 q1 h1 -> okhs es en1 q1 l en' q h2 -> okhs (e :: es) en p (v :: l) en' q (h1 ++ h2)
  with okht : expr -> point -> list val -> point -> list hid -> Prop :=
  | okht_stop e p : okht e p [] p []
  | okht_more e p v en' q h1 l q' h2 : okh e [] p v en' q h1 -> okht e q l q' h2 -> okht e p (v :: l) q' (h1 ++ h2).
  Scheme okh_mind := Minimality for okh Sort Prop
    with okhs_mind := Minimality for okhs Sort Prop
    with okht_mind := Minimality for okht Sort Prop.
  Combined Scheme okh_mutind from okh_mind, okhs_mind, okht_mind.

  Lemma okh_steps_all :
    (forall e en p v en' q hs, okh e en p v en' q hs -> Steps p q) /\
    (forall es en p v en' q hs, okhs es en p v en' q hs -> Steps p q) /\
    (forall e p l q hs, okht e p l q hs -> Steps p q).
  Proof. apply okh_mutind; intros; auto using steps_refl; eapply steps_trans; eauto. Qed.
  Lemma okh_steps e en p v en' q hs : okh e en p v en' q hs -> Steps p q.
  Proof. apply okh_steps_all. Qed.

  (** inversions *)
  Lemma hi_act a e en p v en' q hs : okh (EAct a e) en p v en' q hs -> exists v0 h0, okh e en p v0 en' q h0 /\
    (exists en2, peg ign g (EAct a e) en p (POk v en2 q)) /\ matches g e (seg p q) /\ Reach data p /\ Steps p q /\
    run_action ign (Some []) a en' (pt_pos p) (seg p q) = RVal v /\ hs = match a with AStr => [(pt_pos p, seg p q)] | _ => h0 end.
  Proof. inversion 1; subst; eauto 12. Qed.
  Lemma hi_lab l e en p v en' q hs : okh (ELab l e) en p v en' q hs -> en' = bind l v en /\ exists en1, okh e [] p v en1 q hs.
  Proof. inversion 1; subst; eauto. Qed.
  Lemma hi_opt e en p v en' q hs : okh (EOpt e) en p v en' q hs -> en' = en /\ ((exists en1, okh e [] p v en1 q hs) \/ (v = VNil /\ q = p /\ hs = [])).
  Proof. inversion 1; subst; eauto. Qed.
  Lemma hi_not e en p v en' q hs : okh (ENot e) en p v en' q hs -> en' = en /\ q = p /\ hs = [].
  Proof. inversion 1; subst; eauto. Qed.
  Lemma hi_state c en p v en' q hs : okh (EStateCode c) en p v en' q hs -> en' = en /\ q = p /\ hs = [].
  Proof. inversion 1; subst; eauto. Qed.
  Lemma hi_and c en p v en' q hs : okh (EAndCode c) en p v en' q hs -> c = PInitParser /\ en' = en /\ q = p /\ hs = [].
  Proof. inversion 1; subst; eauto. Qed.
  Lemma hi_ref n en p v en' q hs : okh (ERef n) en p v en' q hs -> en' = en /\ Steps p q /\ Reach data p /\ T n p v q hs.
  Proof. inversion 1; subst; eauto. Qed.
  Lemma hi_seq0 en p v en' q hs : okh (ESeq []) en p v en' q hs -> en' = en /\ q = p /\ hs = [].
  Proof. intros H. inversion H as [| | | | | | | | | | |? ? ? ? ? ? ? K| | | | ]; subst. inversion K; subst. auto. Qed.
  Lemma hi_seq e es en p v en' q hs : okh (ESeq (e :: es)) en p v en' q hs -> exists v1 en1 q1 v2 h1 h2,
    okh e en p v1 en1 q1 h1 /\ okh (ESeq es) en1 q1 v2 en' q h2 /\ hs = h1 ++ h2.
  Proof. intros H. inversion H as [| | | | | | | | | | |? ? ? ? ? ? ? K| | | | ]; subst. inversion K; subst. eexists _, _, _, _, _, _. split; [eassumption|]. split; [constructor; eassumption|reflexivity]. Qed.
  Lemma hi_choice0 en p v en' q hs : okh (EChoice []) en p v en' q hs -> False.
  Proof. inversion 1. Qed.
  Lemma hi_choice e es en p v en' q hs : okh (EChoice (e :: es)) en p v en' q hs -> (en' = en /\ exists en1, okh e [] p v en1 q hs) \/ okh (EChoice es) en p v en' q hs.
  Proof. inversion 1; subst; eauto. Qed.
  Lemma okh_choice_env es en p v en' q hs : okh (EChoice es) en p v en' q hs -> en' = en.
  Proof. induction es as [|e es IH]; intros H; [inversion H|]. apply hi_choice in H as [[H _]|H]; auto. Qed.
  Lemma hi_star e en p v en' q hs : okh (EStar e) en p v en' q hs -> en' = en /\ exists l, v = VList l /\ okht e p l q hs /\ Reach data p /\ exists en2, peg ign g (EStar e) en p (POk (VList l) en2 q).
  Proof. inversion 1; subst; eauto 6. Qed.
  Lemma hi_lit w rs en p v en' q hs : okh (ELit w rs) en p v en' q hs -> en' = en /\ Steps p q /\ lit_text rs (seg p q) /\ hs = [].
  Proof. inversion 1; subst; eauto. Qed.
End Okh.

(** Errors are only appended. *)
Lemma errs_all o g :
  (forall rule e en s r, ev o g rule e en s r -> out_st r (fun s' => exists l, s_errs s' = s_errs s ++ l)) /\
  (forall rule pt w es acc en s r, evs o g rule pt w es acc en s r -> out_st r (fun s' => exists l, s_errs s' = s_errs s ++ l)) /\
  (forall rule es en s r, evc o g rule es en s r -> out_st r (fun s' => exists l, s_errs s' = s_errs s ++ l)) /\
  (forall rule e acc en s r, evt o g rule e acc en s r -> out_st r (fun s' => exists l, s_errs s' = s_errs s ++ l)).
Proof.
  apply (ev_mono_all o g (fun s s' => exists l, s_errs s' = s_errs s ++ l)); intros; try (exists []; now rewrite app_nil_r).
  - destruct H as [l H], H0 as [l' H']. exists (l ++ l'). now rewrite H', H, app_assoc.
  - eexists. reflexivity.
  - exists []. rewrite app_nil_r. unfold push_error. destruct (s_ff s) as [|f l]; [reflexivity|].
    destruct (_ <? _); [reflexivity|]. destruct (_ =? _); [|reflexivity]. destruct (existsb _ _); reflexivity.
Qed.

(** ** Runs *)
Definition quiet_settings (o : settings) : settings := Settings (o_ignore o) false (o_invalid o) (o_max o).

Section Run.
  Variable o : settings.
  Variable data : bytes.
  Notation g := gen_grammar.
  Hypothesis Hmax : o_max o = None.
  Hypothesis Henc : forall p, Reach data p -> bad_rune (pt_rest p) && negb (o_invalid o) = false.

  Definition Rw0 (w w' : option (list position)) : Prop := w' = Some [].
  Lemma ev_peg_any rule e en s r : ev o g rule e en s r -> okx not_ret_config not_init e = true -> lits_ok e = true -> Reach data (s_pt s) ->
    match r with
    | OOk v _ s' => s_errs s' = s_errs s -> exists en2, peg (o_ignore o) g e en (s_pt s) (POk v en2 (s_pt s'))
    | OFail _ s' => s_errs s' = s_errs s -> peg (o_ignore o) g e en (s_pt s) PFail
    | _ => True
    end.
  Proof.
    intros H Ho Hl Hr. set (o' := quiet_settings o).
    assert (S0 : simst Rw0 eq eq s (set_warns (Some []) s)).
    { constructor; cbn; try reflexivity. clear. induction (s_errs s); constructor; [repeat split|assumption]. }
    assert (Ract : forall a en en' w w' p t, not_ret_config a = true -> simenv eq en en' -> Rw0 w w' ->
      simres eq eq (run_action (o_ignore o) w a en p t) (run_action (o_ignore o') w' a en' p t)).
    { intros a en0 en' w w' p t Ha K _. change (o_ignore o') with (o_ignore o).
      rewrite (simenv_eq_action _ _ _ _ _ _ _ K), (action_warns _ _ _ w w') by exact Ha. apply simres_refl. }
    assert (Rv_inv : forall l (v' : val), VList l = v' -> exists l', v' = VList l' /\ Forall2 eq l l').
    { intros l v' <-. exists l. split; auto. clear; induction l; auto. }
    assert (Rv_inv' : forall (v : val) l', v = VList l' -> exists l, v = VList l) by (intros; eauto).
    assert (Rv_l : forall l l' : list val, Forall2 eq l l' -> VList l = VList l') by (intros; f_equal; now apply Forall2_eq).
    assert (Rf_push : forall m s s', simst Rw0 eq eq s s' -> s_ff (push_error m s) = s_ff (push_error m s')).
    { intros m s1 s' K. unfold push_error, cur_off.
      rewrite (sim_cpos _ _ _ _ _ K), (sim_ctext _ _ _ _ _ K). pose proof (sim_ff _ _ _ _ _ K) as E. rewrite <- E.
      destruct (s_ff s1) as [|f l] eqn:E1; [reflexivity|]. destruct (_ <? _); [reflexivity|].
      destruct (_ =? _); [|now rewrite E1]. destruct (existsb _ _); cbn; [now rewrite E1|reflexivity]. }
    assert (Ei : forall w w', Rw0 w w' -> Rw0 (init_warns w) (init_warns w')) by (intros w w' ->; reflexivity).
    assert (Ew : forall p t w w', Rw0 w w' -> Rw0 (warn_step o p t w) (warn_step o' p t w')) by (intros p t w w' ->; reflexivity).
    assert (K : exists r', ev o' gen_grammar rule e en (set_warns (Some []) s) r' /\ simout eq Rw0 eq eq r r').
    { eapply (ev_sim o o' gen_grammar not_ret_config not_init gen_no_ret_rule eq_refl eq_refl eq Rw0 eq eq); eauto. intros l. reflexivity. }
    destruct K as (r' & K & S1).
    pose proof (proj1 (ev_peg_all o' g data gen_lits_ok Hmax eq_refl Henc) _ _ _ _ _ K Hl Hr eq_refl) as A.
    change (o_ignore o') with (o_ignore o) in A. cbn [s_pt set_warns] in A.
    assert (Er : forall s1 s2, simst Rw0 eq eq s1 s2 -> s_errs s1 = s_errs s2).
    { intros s1 s2 Q. pose proof (sim_errs _ _ _ _ _ Q) as F. revert F. generalize (s_errs s1), (s_errs s2). clear.
      induction 1 as [|[p1 r1 m1] [p2 r2 m2] l l2 HE F IH]; [reflexivity|]. destruct HE as (E1 & E2 & E3). cbn in E1, E2, E3. subst. reflexivity. }
    destruct r as [v en' s'|en' s'|m x s'|], r' as [v2 en2 s2|en2 s2|m2 x2 s2|]; cbn in S1; try contradiction; try exact I.
    - destruct S1 as (<- & _ & S1). intros E. cbn in A. destruct A as (_ & _ & [[_ A]|[A _]]).
      + exists en2. now rewrite (sim_pt _ _ _ _ _ S1).
      + exfalso. apply A. unfold same. cbn. rewrite <- (Er _ _ S1). exact E.
    - destruct S1 as (_ & S1). intros E. cbn in A. destruct A as (_ & _ & [[_ A]|[A _]]).
      + exact A.
      + exfalso. apply A. unfold same. cbn. rewrite <- (Er _ _ S1). exact E.
  Qed.
  Lemma errs_back rule e en s v en' s' : ev o g rule e en s (OOk v en' s') -> s_errs s' = [] -> s_errs s = [].
  Proof. intros H E. apply ev_errs in H as [l H]. rewrite E in H. symmetry in H. now apply app_eq_nil in H as [H _]. Qed.
  Lemma errs_back_fail rule e en s en' s' : ev o g rule e en s (OFail en' s') -> s_errs s' = [] -> s_errs s = [].
  Proof. intros H E. apply ev_errs in H as [l H]. rewrite E in H. symmetry in H. now apply app_eq_nil in H as [H _]. Qed.

  Definition noted (hs : list hid) : list position :=
    if o_warn o then map fst (filter (fun h => existsb (N.eqb HASH) (snd h)) hs) else [].
  Lemma noted_app h1 h2 : noted (h1 ++ h2) = noted h1 ++ noted h2.
  Proof. unfold noted. destruct (o_warn o); [|reflexivity]. now rewrite filter_app, map_app. Qed.
  Lemma noted_nil : noted [] = [].
  Proof. unfold noted. now destruct (o_warn o). Qed.

  Variable T : string -> point -> val -> point -> list hid -> Prop.
  Notation okh := (okh (o_ignore o) g data T).
  Notation okhs := (okhs (o_ignore o) g data T).
  Notation okht := (okht (o_ignore o) g data T).
  Hypothesis HT : forall n e p v en q hs, find_rule n g = Some e -> okh e [] p v en q hs -> Reach data p ->
    (exists en2, peg (o_ignore o) g e [] p (POk v en2 q)) -> T n p v q hs.

  Definition good_ev (e : expr) (en : env) (s : st) (r : out) : Prop :=
    match r with
    | OOk v en' s' => s_errs s' = [] ->
        (placed' e = true -> exists hs, okh e en (s_pt s) v en' (s_pt s') hs /\ warns_of s' = warns_of s ++ noted hs) /\
        (forall x, e = EAct AStr x -> quiet x = true -> placed' x = true ->
           okh e en (s_pt s) v en' (s_pt s') [(pt_pos (s_pt s), seg (s_pt s) (s_pt s'))] /\ warns_of s' = warns_of s /\
           s_cpos s' = pt_pos (s_pt s) /\ s_ctext s' = seg (s_pt s) (s_pt s'))
    | _ => True
    end.
  Definition good_evs (es : list expr) (acc : list val) (en : env) (s : st) (r : out) : Prop :=
    match r with
    | OOk v en' s' => s_errs s' = [] ->
        (placed_seq' es = true -> exists l hs, v = VList (rev acc ++ l) /\ okhs es en (s_pt s) l en' (s_pt s') hs /\ warns_of s' = warns_of s ++ noted hs) /\
        (forall es', es = EStateCode SWarnComment :: es' -> placed_seq' es' = true ->
           exists l hs, v = VList (rev acc ++ l) /\ okhs es en (s_pt s) l en' (s_pt s') hs /\
             warns_of s' = warns_of s ++ noted [(s_cpos s, s_ctext s)] ++ noted hs)
    | _ => True
    end.
  Definition good_evc (es : list expr) (en : env) (s : st) (r : out) : Prop :=
    match r with
    | OOk v en' s' => s_errs s' = [] -> forallb placed' es = true ->
        exists hs, okh (EChoice es) en (s_pt s) v en' (s_pt s') hs /\ warns_of s' = warns_of s ++ noted hs
    | _ => True
    end.
  Definition good_evt (e : expr) (acc : list val) (en : env) (s : st) (r : out) : Prop :=
    match r with
    | OOk v en' s' => s_errs s' = [] -> placed' e = true ->
        en' = en /\ exists l hs, v = VList (rev acc ++ l) /\ okht e (s_pt s) l (s_pt s') hs /\ warns_of s' = warns_of s ++ noted hs
    | _ => True
    end.
  Lemma warns_same s s' : s_warns s' = s_warns s -> warns_of s' = warns_of s.
  Proof. unfold warns_of. now intros ->. Qed.
  Lemma warns_none s s' : s_warns s' = s_warns s -> warns_of s' = warns_of s ++ noted [].
  Proof. intros H. rewrite noted_nil, app_nil_r. now apply warns_same. Qed.

  Lemma okx_forall es : forallb (okx not_ret_config not_init) es = true -> Forall (fun e => okx not_ret_config not_init e = true) es.
  Proof. apply forallb_Forall || (intros H; apply Forall_forall; intros x; rewrite forallb_forall in H; auto). Qed.

  Lemma hid_all :
    (forall rule e en s r, ev o g rule e en s r -> in_g g e -> okx not_ret_config not_init e = true -> Reach data (s_pt s) -> good_ev e en s r) /\
    (forall rule pt w es acc en s r, evs o g rule pt w es acc en s r -> Forall (in_g g) es -> forallb (okx not_ret_config not_init) es = true ->
       Reach data (s_pt s) -> good_evs es acc en s r) /\
    (forall rule es en s r, evc o g rule es en s r -> Forall (in_g g) es -> forallb (okx not_ret_config not_init) es = true ->
       Reach data (s_pt s) -> good_evc es en s r) /\
    (forall rule e acc en s r, evt o g rule e acc en s r -> in_g g e -> okx not_ret_config not_init e = true -> Reach data (s_pt s) ->
       good_evt e acc en s r).
  Proof.
    apply ev_mutind; try (intros; exact I).
    - (* primitive *)
      intros rule e en s r L H [He Ha] Hx Hs. destruct r as [v en' s'| | |]; try exact I. intros E.
      assert (Hev := ev_prim o g rule e en s _ L H).
      pose proof (ev_track o g data gen_lits_ok rule e en s _ Hev He Hs) as St. cbn in St.
      split; [|intros x ->; cbn in H; discriminate]. intros Hp.
      destruct e; cbn [prim_out] in H; try discriminate H.
      + destruct p; cbn in H; inversion H; subst. exists []. split; [constructor|]. now apply warns_none.
      + destruct c; [|discriminate]. inversion H; subst. exists []. split; [|cbn; destruct (s_warns s) eqn:Q; cbn; unfold warns_of; cbn; rewrite ?Q, noted_nil, ?app_nil_r; reflexivity].
        cbn. destruct (s_warns s); constructor.
      + exists []. destruct (at_eof _); inversion H; subst. split; [constructor; exact St|]. apply warns_none. now rewrite fail_at_warns, read_warns.
      + exists []. destruct (_ && _); inversion H; subst. split; [constructor; exact St|]. apply warns_none. now rewrite fail_at_warns, read_warns.
      + exists []. split.
        * pose proof (ev_matches o g data gen_lits_ok _ _ _ _ _ _ _ Hev He Hs) as M. cbn in M. 
          assert (en' = en). { injection H as H. clear -H. revert H. generalize (tick s). induction runes as [|r rs IH]; cbn; intros s0 H; [now inversion H|]. destruct (_ =? _)%N; [eauto|discriminate]. }
          subst en'. constructor; [exact St|]. now inversion M.
        * apply warns_none. apply (quiet_prim o g rule (ELit want runes) en (tick s) v en'); [reflexivity|exact H].
      + destruct (find_rule name g); discriminate H.
    - (* action *)
      intros rule a e en s r L H IH [He Ha] Hx Hs. cbn in Hx. apply andb_true_iff in Hx as [Hx1 Hx2].
      assert (In1 : in_g g e) by (split; [exact He|intros x Hy; apply Ha; now right]).
      specialize (IH In1 Hx2 Hs). destruct r as [v0 en' s1| | |]; try exact I.
      assert (Hev := ev_act o g rule a e en s _ L H).
      pose proof (ev_track o g data gen_lits_ok _ _ _ _ _ H He Hs) as St. pose proof (ev_matches o g data gen_lits_ok _ _ _ _ _ _ _ H He Hs) as M.
      cbn [act_out] in *. rewrite slice_seg in *. cbn [s_pt tick set_cnt] in *.
      destruct (run_action (o_ignore o) _ a en' (pt_pos (s_pt s)) (seg (s_pt s) (s_pt s1))) as [v|v m|m] eqn:Ea; cbn; try exact I.
      2: { intros E. exfalso. cbn in E. destruct (s_errs s1); discriminate. }
      intros E. rewrite (action_warns _ _ _ _ (Some [])) in Ea by exact Hx1. destruct (IH E) as [IH1 _].
      assert (P : exists en2, peg (o_ignore o) g (EAct a e) en (s_pt s) (POk v en2 (s_pt s1))).
      { apply (ev_peg_any _ _ _ _ _ Hev); [cbn; now rewrite Hx1, Hx2|exact He|exact Hs|]. cbn. rewrite E. symmetry.
        exact (errs_back _ _ _ _ _ _ _ H E). }
      split.
      + intros Hp. assert (Hp' : placed' e = true) by (cbn in Hp; destruct a; try discriminate; exact Hp).
        destruct (IH1 Hp') as (hs & K1 & K2). exists hs. split; [|exact K2].
        assert (Ehs : match a with AStr => [(pt_pos (s_pt s), seg (s_pt s) (s_pt s1))] | _ => hs end = hs) by (destruct a; try reflexivity; discriminate Hp).
        rewrite <- Ehs. eapply okh_act; eauto.
      + intros x Ex Hq Hp. inversion Ex; subst. destruct (IH1 Hp) as (hs & K1 & K2).
        split; [apply (okh_act _ _ _ _ AStr _ _ _ _ _ _ _ hs K1 P M Hs St Ea)|].
        pose proof (proj1 (quiet_warns o g data gen_lits_ok) _ _ _ _ _ H He Hs Hq) as W. cbn in W.
        split; [unfold warns_of; cbn; now rewrite W|]. split; reflexivity.
    - (* label *)
      intros rule l e en s r L H IH He Hx Hs. specialize (IH He Hx Hs). destruct r; try exact I. intros E. destruct (IH E) as [IH1 _].
      split; [|intros ? QQ; discriminate QQ]. intros Hp. destruct (IH1 Hp) as (hs & K1 & K2). exists hs. split; [|exact K2]. econstructor. exact K1.
    - (* not *)
      intros rule e en s r L H IH He Hx Hs.
      pose proof (ev_track o g data gen_lits_ok _ _ _ _ _ H (proj1 He) Hs) as T1.
      destruct r as [| en' s'| |]; unfold not_out; cbn -[restore]; try exact I. intros E. split; [|intros ? QQ; discriminate QQ]. intros Hp. exists []. split.
      + cbn in T1. rewrite (restore_pt data); [constructor| |]; auto. cbn. destruct T1 as [-> _]. exact Hs.
      + apply warns_none. now rewrite restore_warns.
    - (* option *)
      intros rule e en s r L H IH He Hx Hs. specialize (IH He Hx Hs).
      pose proof (ev_track o g data gen_lits_ok _ _ _ _ _ H (proj1 He) Hs) as T1. destruct r as [v en' s'|en' s'| |]; cbn; try exact I; intros E; (split; [|intros ? QQ; discriminate QQ]); intros Hp.
      + destruct (IH E) as [IH1 _]. destruct (IH1 Hp) as (hs & K1 & K2). exists hs. split; [econstructor; exact K1|exact K2].
      + cbn in T1. destruct T1 as [T1 T2]. exists []. rewrite T1. split; [constructor|]. now apply warns_none.
    - (* rule *)
      intros rule n e en s r L F H IH He Hx Hs. specialize (IH (in_g_rule g gen_lits_ok _ _ F) (gen_no_ret_rule _ _ Hx F) Hs).
      pose proof (ev_track o g data gen_lits_ok _ _ _ _ _ H (proj1 (in_g_rule g gen_lits_ok _ _ F)) Hs) as T1.
      destruct r as [v en' s'| | |]; cbn; try exact I. intros E. destruct (IH E) as [IH1 _]. split; [|intros ? QQ; discriminate QQ]. intros _.
      assert (Hp : placed' e = true). { apply find_rule_in in F. pose proof gen_placed' as Q. rewrite forallb_forall in Q. exact (Q _ F). }
      destruct (IH1 Hp) as (hs & K1 & K2). exists hs. split; [|exact K2]. constructor; [exact T1|exact Hs|]. eapply HT; eauto.
      apply (ev_peg_any _ _ _ _ _ H); [exact (gen_no_ret_rule _ _ Hx F)|exact (proj1 (in_g_rule g gen_lits_ok _ _ F))|exact Hs|]. rewrite E. symmetry. exact (errs_back _ _ _ _ _ _ _ H E).
    - (* sequence *)
      intros rule es en s r L H IH [He Ha] Hx Hs. specialize (IH ltac:(now apply in_g_list) Hx Hs). destruct r; try exact I. intros E.
      destruct (IH E) as [IH1 _]. split; [|intros ? QQ; discriminate QQ]. intros Hp. destruct (IH1 Hp) as (l & hs & -> & K1 & K2). exists hs. split; [now constructor|exact K2].
    - (* choice *)
      intros rule es en s r L H IH [He Ha] Hx Hs. specialize (IH ltac:(now apply in_g_list) Hx Hs). destruct r; try exact I. intros E.
      split; [|intros ? QQ; discriminate QQ]. intros Hp. exact (IH E Hp).
    - (* star *)
      intros rule e en s r L H IH He Hx Hs. specialize (IH He Hx Hs). assert (Hev := ev_star o g rule e en s _ L H). destruct r as [v en' s'| | |]; try exact I. intros E.
      split; [|intros ? QQ; discriminate QQ]. intros Hp. destruct (IH E Hp) as (-> & l & hs & -> & K1 & K2). exists hs. split; [|exact K2]. constructor; [exact K1|exact Hs|].
      apply (ev_peg_any _ _ _ _ _ Hev); [exact Hx|exact (proj1 He)|exact Hs|]. rewrite E. symmetry. exact (errs_back _ _ _ _ _ _ _ Hev E).
    - (* plus *)
      intros rule e en s r L H IH He Hx Hs. specialize (IH He Hx Hs). destruct r as [v en' s'| | |]; try exact I. unfold plus_out.
      destruct v; try (intros E; split; [|intros ? QQ; discriminate QQ]; intros Hp; destruct (IH E Hp) as (-> & l1 & hs & Ev & _); discriminate Ev).
      destruct l as [|v0 l0]; [exact I|]. intros E. split; [|intros ? QQ; discriminate QQ]. intros Hp. destruct (IH E Hp) as (-> & l1 & hs & Ev & K1 & K2). cbn in Ev. inversion Ev; subst l1.
      exists hs. split; [now constructor|exact K2].
    - (* end of a sequence *)
      intros rule pt w acc en s _ _ _. cbn. intros E. split; [|intros ? QQ; discriminate QQ]. intros _. exists [], []. rewrite app_nil_r. split; [reflexivity|]. split; [constructor|]. now apply warns_none.
    - (* element of a sequence *)
      intros rule pt w e es acc en s v en' s' r H1 IH1 H2 IH2 He Hx Hs.
      inversion He as [|? ? He1 He2]; subst. cbn in Hx. apply andb_true_iff in Hx as [Hx1 Hx2].
      pose proof (ev_track o g data gen_lits_ok _ _ _ _ _ H1 (proj1 He1) Hs) as T1. cbn in T1.
      assert (Hs' := steps_reach _ _ _ Hs T1). specialize (IH1 He1 Hx1 Hs). specialize (IH2 He2 Hx2 Hs').
      destruct r as [v2 en2 s2| | |]; try exact I. intros E. destruct (IH2 E) as [A1 A2].
      assert (E1 : s_errs s' = []).
      { pose proof (proj1 (proj2 (errs_all o g)) _ _ _ _ _ _ _ _ H2) as [l Q]. rewrite E in Q. symmetry in Q. now apply app_eq_nil in Q as [Q _]. }
      specialize (IH1 E1). destruct IH1 as [B1 B2]. split.
      + intros Hp. apply placed_seq_cons' in Hp as [[P1 P2]|(x & l' & -> & -> & P1 & P2 & P3)].
        * destruct (B1 P1) as (h1 & K1 & K2), (A1 P2) as (l & h2 & -> & K3 & K4). exists (v :: l), (h1 ++ h2). cbn [rev]. rewrite <- app_assoc.
          split; [reflexivity|]. split; [econstructor; eauto|]. now rewrite K4, K2, noted_app, app_assoc.
        * destruct (B2 x eq_refl P1 P2) as (K1 & K2 & K3 & K4). destruct (A2 l' eq_refl P3) as (l & h2 & -> & K5 & K6).
          exists (v :: l), ([(pt_pos (s_pt s), seg (s_pt s) (s_pt s'))] ++ h2). cbn [rev]. rewrite <- app_assoc. split; [reflexivity|].
          split; [econstructor; eauto|]. rewrite noted_app, K6, K2, K3, K4. reflexivity.
      + intros es' Ee Hp. inversion Ee; subst. eapply inv_prim in H1; [|reflexivity]. destruct H1 as [[_ H1]|[_ H1]]; [discriminate|]. inversion H1; subst.
        destruct (A1 Hp) as (l & h2 & -> & K3 & K4). exists (VNil :: l), ([] ++ h2). cbn [rev]. rewrite <- app_assoc. split; [reflexivity|]. split.
        * econstructor; [|exact K3]. unfold run_state. cbn [tick set_cnt s_ctext]. destruct (_ && _); constructor.
        * rewrite K4, app_assoc. f_equal. unfold run_state, noted. cbn [tick set_cnt s_ctext s_cpos]. destruct (o_warn o); cbn [andb filter snd map fst];
            [destruct (existsb _ _); cbn; [reflexivity|now rewrite app_nil_r]|cbn; now rewrite app_nil_r].
    - (* alternative taken *)
      intros rule e es en s v en' s' H1 IH1 He Hx Hs. cbn in Hx. apply andb_true_iff in Hx as [Hx1 Hx2].
      inversion He as [|? ? He1 He2]; subst. specialize (IH1 He1 Hx1 Hs). intros E Hp. cbn in Hp. apply andb_true_iff in Hp as [Hp1 Hp2].
      destruct (IH1 E) as [B1 _]. destruct (B1 Hp1) as (hs & K1 & K2). exists hs. split; [econstructor; exact K1|exact K2].
    - (* next alternative *)
      intros rule e es en s en' s' r H1 IH1 H2 IH2 He Hx Hs. cbn in Hx. apply andb_true_iff in Hx as [Hx1 Hx2].
      inversion He as [|? ? He1 He2]; subst. destruct (ev_track o g data gen_lits_ok _ _ _ _ _ H1 (proj1 He1) Hs) as [T1 T2].
      cbn in IH2. rewrite T1 in IH2. specialize (IH2 He2 Hx2 Hs). destruct r as [v2 en2 s2| | |]; try exact I. intros E Hp. cbn in Hp. apply andb_true_iff in Hp as [Hp1 Hp2].
      destruct (IH2 E Hp2) as (hs & K1 & K2). exists hs. cbn [s_pt set_warns] in K1. rewrite T1 in K1. split; [now apply okh_choice_next|].
      rewrite K2. reflexivity.
    - (* iteration ends *)
      intros rule e acc en s en' s' H1 IH1 He Hx Hs. destruct (ev_track o g data gen_lits_ok _ _ _ _ _ H1 (proj1 He) Hs) as [T1 T2].
      intros E Hp. split; [reflexivity|]. exists [], []. rewrite app_nil_r, T1. split; [reflexivity|]. split; [constructor|]. now apply warns_none.
    - (* one more iteration *)
      intros rule e acc en s v en' s' r H1 IH1 H2 IH2 He Hx Hs. specialize (IH1 He Hx Hs).
      pose proof (ev_track o g data gen_lits_ok _ _ _ _ _ H1 (proj1 He) Hs) as T1. cbn in T1. specialize (IH2 He Hx (steps_reach _ _ _ Hs T1)).
      destruct r as [v2 en2 s2| | |]; try exact I. intros E Hp. destruct (IH2 E Hp) as (-> & l & h2 & -> & K3 & K4).
      assert (E1 : s_errs s' = []).
      { pose proof (proj2 (proj2 (proj2 (errs_all o g))) _ _ _ _ _ _ H2) as [l0 Q]. rewrite E in Q. symmetry in Q. now apply app_eq_nil in Q as [Q _]. }
      destruct (IH1 E1) as [B1 _]. destruct (B1 Hp) as (h1 & K1 & K2). split; [reflexivity|]. exists (v :: l), (h1 ++ h2). cbn [rev]. rewrite <- app_assoc.
      split; [reflexivity|]. split; [econstructor; eauto|]. now rewrite K4, K2, noted_app, app_assoc.
  Qed.
End Run.
