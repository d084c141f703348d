(** Reasoning about successful derivations of PegSem.v: the text of an expression,
    and invariants attached to the rules. *)
From Coq Require Import List NArith Bool String Arith Lia.
From Verif Require Import Bytes Utf8 F64 Ast Peg Actions Engine Parser QuoteFacts PosFacts Run EngineFacts Matches PegSem.
Import ListNotations.

Section PegMatch.
  Variable ign : bool.
  Variable g : grammar.
  Hypothesis Hg : grammar_lits_ok g = true.

  Lemma lit_end_text rs : forall p q, forallb (fun r => negb (r =? RuneError)%N) rs = true ->
    lit_end rs p = Some q -> Steps p q /\ lit_text rs (seg p q).
  Proof.
    induction rs as [|r rs IH]; intros p q Hr H; cbn [lit_end] in H.
    - injection H as <-. rewrite seg_refl. split; constructor.
    - cbn in Hr. apply andb_true_iff in Hr as [Hr1 Hr2].
      destruct (N.eqb_spec (fst (decode_rune (pt_rest p))) r) as [E|E]; [|discriminate].
      assert (Hn : pt_rest p <> []).
      { apply decode_nonempty. rewrite E. now apply negb_true_iff, N.eqb_neq in Hr1. }
      destruct (IH _ _ Hr2 H) as [K1 K2]. destruct (seg_one _ Hn) as (S1 & S2 & S3).
      assert (St : Steps p q) by (eapply steps_trans; [apply steps_one; exact Hn|exact K1]).
      split; [exact St|]. rewrite (seg_app _ _ _ (steps_one _ Hn) K1). constructor; auto. now rewrite S3, E.
  Qed.

  Lemma rule_lits n e : find_rule n g = Some e -> lits_ok e = true.
  Proof. intros F. apply find_rule_in in F. unfold grammar_lits_ok in Hg. rewrite forallb_forall in Hg. exact (Hg _ F). Qed.
  Lemma not_lit w c en p v en' q : peg ign g (ENot (ELit w [c])) en p (POk v en' q) -> fst (decode_rune (pt_rest p)) <> c.
  Proof.
    intros H. remember (POk v en' q) as r eqn:Er. inversion H; subst; try discriminate.
    match goal with H1 : peg _ _ (ELit _ _) _ _ PFail |- _ => inversion H1; subst end.
    match goal with K : lit_end _ _ = None |- _ => cbn in K; destruct (N.eqb_spec (fst (decode_rune (pt_rest p))) c); [discriminate|assumption] end.
  Qed.

  Definition good_out (p : point) (r : pout) (M : bytes -> Prop) : Prop :=
    match r with POk _ _ q => Steps p q /\ M (seg p q) | _ => True end.
  Lemma peg_matches_all :
    (forall e en p r, peg ign g e en p r -> lits_ok e = true -> good_out p r (matches g e)) /\
    (forall es en p r, pegs ign g es en p r -> forallb lits_ok es = true -> good_out p r (matches_seq g es)) /\
    (forall e p r, pegt ign g e p r -> lits_ok e = true ->
       match r with Some (vs, q) => Steps p q /\ exists l, List.length vs = List.length l /\ matches_all g e l /\ seg p q = List.concat l
       | None => True end).
  Proof.
    apply peg_mutind; intros; cbn [good_out] in *; try exact I;
      try (match goal with H : ?r = PFail \/ ?r = PAbort |- _ => destruct H; subst; exact I end).
    - destruct (H0 H2) as [A B]. split; [exact A|now constructor].
    - split; [constructor|]. rewrite seg_refl. constructor.
    - split; [constructor|]. rewrite seg_refl. constructor.
    - unfold one. destruct (seg_one _ H) as (S1 & S2 & S3). split; [now apply steps_one|]. constructor; [exact S2|now rewrite S3].
    - unfold one. destruct (seg_one _ H) as (S1 & S2 & S3). split; [now apply steps_one|]. constructor; [exact S2|now rewrite S3|now rewrite S3].
    - apply lit_end_text in H as [A B]; [|exact H0]. split; [exact A|now constructor].
    - destruct (H0 H1) as [A B]. split; [exact A|now constructor].
    - split; [constructor|]. rewrite seg_refl. constructor.
    - destruct (H0 H1) as [A B]. split; [exact A|now constructor].
    - split; [constructor|]. rewrite seg_refl. apply m_opt_none.
    - destruct (H1 (rule_lits _ _ H)) as [A B]. split; [exact A|econstructor; eauto].
    - destruct (H0 H1) as [A B]. split; [exact A|now constructor].
    - cbn in H1. apply andb_true_iff in H1 as [H2 H3]. destruct (H0 H2) as [A B]. split; [exact A|]. econstructor; [now left|exact B].
    - cbn in H3. apply andb_true_iff in H3 as [H4 H5]. specialize (H2 H5). destruct r; cbn in *; auto. destruct H2 as [A B].
      split; [exact A|]. inversion B; subst. econstructor; [right; eassumption|eassumption].
    - destruct (H0 H1) as (A & l' & L & B & C). split; [exact A|]. rewrite C. now constructor.
    - destruct (H0 H1) as (A & l' & L & B & C). split; [exact A|]. rewrite C. constructor; [|exact B]. intros ->. discriminate L.
    - split; [constructor|]. rewrite seg_refl. constructor.
    - cbn in H3. apply andb_true_iff in H3 as [H4 H5]. destruct (H0 H4) as [A B], (H2 H5) as [C D].
      split; [eapply steps_trans; eauto|]. rewrite (seg_app _ _ _ A C). constructor; auto.
      destruct e; cbn; auto. destruct e; auto. destruct runes as [|c [|]]; auto.
      apply not_lit in H. rewrite <- (seg_app _ _ _ A C). intros N. rewrite seg_head; auto. eapply steps_trans; eauto.
    - split; [constructor|]. exists []. rewrite seg_refl. repeat split. constructor.
    - destruct (H0 H3) as [A B], (H2 H3) as (C & l' & L & D & E). split; [eapply steps_trans; eauto|].
      exists (seg p q :: l'). cbn. rewrite L, (seg_app _ _ _ A C), E. repeat split. now constructor.
  Qed.
  Lemma peg_steps e en p v en' q : peg ign g e en p (POk v en' q) -> lits_ok e = true -> Steps p q.
  Proof. intros H L. exact (proj1 (proj1 peg_matches_all _ _ _ _ H L)). Qed.
  Lemma peg_matches e en p v en' q : peg ign g e en p (POk v en' q) -> lits_ok e = true -> matches g e (seg p q).
  Proof. intros H L. exact (proj2 (proj1 peg_matches_all _ _ _ _ H L)). Qed.
End PegMatch.

(** ** Successful derivations, with an invariant for each rule *)
Section Ok.
  Variable ign : bool.
  Variable g : grammar.
  Variable data : bytes.
  Variable T : string -> point -> val -> point -> Prop.
  Hypothesis Hg : grammar_lits_ok g = true.

  Inductive ok : expr -> env -> point -> val -> env -> point -> Prop :=
  | ok_act a e en p v0 en' q v :
      ok e en p v0 en' q -> peg ign g e en p (POk v0 en' q) -> matches g e (seg p q) -> Reach data p -> Steps p q ->
      run_action ign (Some []) a en' (pt_pos p) (seg p q) = RVal v ->
      ok (EAct a e) en p v en' q
  | ok_state c en p : ok (EStateCode c) en p VNil en p
  | ok_init en p : ok (EAndCode PInitParser) en p VNil en p
  | ok_any en p v q : Steps p q -> ok EAny en p v en q
  | ok_class w cs rs inv en p v q : Steps p q -> ok (EClass w cs rs inv) en p v en q
  | ok_lit w rs en p v q : Steps p q -> lit_text rs (seg p q) -> ok (ELit w rs) en p v en q
  | ok_lab l e en p v en' q : ok e [] p v en' q -> ok (ELab l e) en p v (bind l v en) q
  | ok_not e en p : ok (ENot e) en p VNil en p
  | ok_opt e en p v en' q : ok e [] p v en' q -> ok (EOpt e) en p v en q
  | ok_opt_none e en p : peg ign g e [] p PFail -> ok (EOpt e) en p VNil en p
  | ok_ref n en p v q : Steps p q -> Reach data p -> T n p v q -> ok (ERef n) en p v en q
  | ok_seq es en p v en' q : oks es en p v en' q -> ok (ESeq es) en p v en' q
  | ok_choice e es en p v en' q : ok e [] p v en' q -> ok (EChoice (e :: es)) en p v en q
  | ok_choice_next e es en p v en' q : peg ign g e [] p PFail -> ok (EChoice es) en p v en' q -> ok (EChoice (e :: es)) en p v en' q
  | ok_star e en p l q : okt e p l q -> ok (EStar e) en p (VList l) en q
  | ok_plus e en p v l q : okt e p (v :: l) q -> ok (EPlus e) en p (VList (v :: l)) en q
  with oks : list expr -> env -> point -> val -> env -> point -> Prop :=
  | oks_nil en p : oks [] en p (VList []) en p
  | oks_cons e es en p v en1 q1 l en' q :
      ok e en p v en1 q1 -> oks es en1 q1 (VList l) en' q -> oks (e :: es) en p (VList (v :: l)) en' q
  with okt : expr -> point -> list val -> point -> Prop :=
  | okt_stop e p : peg ign g e [] p PFail -> okt e p [] p
  | okt_more e p v en' q l q' : ok e [] p v en' q -> okt e q l q' -> okt e p (v :: l) q'.
  Scheme ok_mind := Minimality for ok Sort Prop
    with oks_mind := Minimality for oks Sort Prop
    with okt_mind := Minimality for okt Sort Prop.
  Combined Scheme ok_mutind from ok_mind, oks_mind, okt_mind.

  Lemma ok_steps_all :
    (forall e en p v en' q, ok e en p v en' q -> Steps p q) /\
    (forall es en p v en' q, oks es en p v en' q -> Steps p q) /\
    (forall e p l q, okt e p l q -> Steps p q).
  Proof. apply ok_mutind; intros; auto using steps_refl; eapply steps_trans; eauto. Qed.
  Lemma ok_steps e en p v en' q : ok e en p v en' q -> Steps p q.
  Proof. apply ok_steps_all. Qed.

  Hypothesis HT : forall n e p v en q, find_rule n g = Some e -> ok e [] p v en q -> Reach data p -> T n p v q.

  Lemma peg_ok_all :
    (forall e en p r, peg ign g e en p r -> lits_ok e = true -> Reach data p ->
       match r with POk v en' q => ok e en p v en' q | _ => True end) /\
    (forall es en p r, pegs ign g es en p r -> forallb lits_ok es = true -> Reach data p ->
       match r with POk v en' q => oks es en p v en' q | _ => True end) /\
    (forall e p r, pegt ign g e p r -> lits_ok e = true -> Reach data p ->
       match r with Some (l, q) => okt e p l q | None => True end).
  Proof.
    apply peg_mutind; intros; try exact I;
      try (match goal with H : ?r = PFail \/ ?r = PAbort |- _ => destruct H; subst; exact I end);
      try solve [constructor; auto].
    - pose proof (peg_steps _ _ Hg _ _ _ _ _ _ H H2). pose proof (peg_matches _ _ Hg _ _ _ _ _ _ H H2).
      econstructor; eauto.
    - constructor. now apply steps_one.
    - constructor. now apply steps_one.
    - apply lit_end_text in H as [A B]; [|exact H0]. now constructor.
    - econstructor; eauto.
    - econstructor; eauto.
    - assert (L := rule_lits g Hg _ _ H). constructor; auto; [exact (peg_steps _ _ Hg _ _ _ _ _ _ H0 L)|]. eapply HT; eauto.
    - cbn in H1. apply andb_true_iff in H1 as [A B]. econstructor; eauto.
    - cbn in H3. apply andb_true_iff in H3 as [A B]. destruct r; auto. apply ok_choice_next; auto.
    - cbn in H3. apply andb_true_iff in H3 as [A B]. assert (S := peg_steps _ _ Hg _ _ _ _ _ _ H A).
      econstructor; eauto. apply H2; auto. eapply steps_reach; eauto.
    - assert (S := peg_steps _ _ Hg _ _ _ _ _ _ H H3). econstructor; eauto. apply H2; auto. eapply steps_reach; eauto.
  Qed.
  Theorem peg_ok e en p v en' q : peg ign g e en p (POk v en' q) -> lits_ok e = true -> Reach data p -> ok e en p v en' q.
  Proof. intros H L R. exact (proj1 peg_ok_all _ _ _ _ H L R). Qed.

  (** inversions *)
  Lemma oi_act a e en p v en' q : ok (EAct a e) en p v en' q -> exists v0, ok e en p v0 en' q /\ peg ign g e en p (POk v0 en' q) /\ matches g e (seg p q) /\ Reach data p /\ Steps p q /\
    run_action ign (Some []) a en' (pt_pos p) (seg p q) = RVal v.
  Proof. inversion 1; subst; eauto 9. Qed.
  Lemma oi_lab l e en p v en' q : ok (ELab l e) en p v en' q -> en' = bind l v en /\ exists en1, ok e [] p v en1 q.
  Proof. inversion 1; subst; eauto. Qed.
  Lemma oi_opt e en p v en' q : ok (EOpt e) en p v en' q -> en' = en /\ ((exists en1, ok e [] p v en1 q) \/ (v = VNil /\ q = p)).
  Proof. inversion 1; subst; eauto. Qed.
  Lemma oi_opt' e en p v en' q : ok (EOpt e) en p v en' q -> en' = en /\ ((exists en1, ok e [] p v en1 q) \/ (v = VNil /\ q = p /\ peg ign g e [] p PFail)).
  Proof. inversion 1; subst; eauto 6. Qed.
  Lemma oi_not e en p v en' q : ok (ENot e) en p v en' q -> en' = en /\ q = p.
  Proof. inversion 1; subst; eauto. Qed.
  Lemma oi_state c en p v en' q : ok (EStateCode c) en p v en' q -> en' = en /\ q = p.
  Proof. inversion 1; subst; eauto. Qed.
  Lemma oi_and c en p v en' q : ok (EAndCode c) en p v en' q -> c = PInitParser /\ en' = en /\ q = p.
  Proof. inversion 1; subst; eauto. Qed.
  Lemma oi_ref n en p v en' q : ok (ERef n) en p v en' q -> en' = en /\ Steps p q /\ Reach data p /\ T n p v q.
  Proof. inversion 1; subst; eauto. Qed.
  Lemma oi_seq0 en p v en' q : ok (ESeq []) en p v en' q -> en' = en /\ q = p.
  Proof. inversion 1 as [| | | | | | | | | | |? ? ? ? ? ? K| | | | ]; subst. inversion K; subst. auto. Qed.
  Lemma oi_seq e es en p v en' q : ok (ESeq (e :: es)) en p v en' q -> exists v1 en1 q1 v2, ok e en p v1 en1 q1 /\ ok (ESeq es) en1 q1 v2 en' q.
  Proof. inversion 1 as [| | | | | | | | | | |? ? ? ? ? ? K| | | | ]; subst. inversion K; subst. eexists _, _, _, _. split; [eassumption|constructor; eassumption]. Qed.
  Lemma oi_choice0 en p v en' q : ok (EChoice []) en p v en' q -> False.
  Proof. inversion 1. Qed.
  Lemma oi_choice e es en p v en' q : ok (EChoice (e :: es)) en p v en' q -> (en' = en /\ exists en1, ok e [] p v en1 q) \/ ok (EChoice es) en p v en' q.
  Proof. inversion 1; subst; eauto. Qed.
  Lemma oi_choice' e es en p v en' q : ok (EChoice (e :: es)) en p v en' q ->
    (en' = en /\ exists en1, ok e [] p v en1 q) \/ (peg ign g e [] p PFail /\ ok (EChoice es) en p v en' q).
  Proof. inversion 1; subst; eauto. Qed.
  Lemma okt_end e p l q : okt e p l q -> peg ign g e [] q PFail.
  Proof. induction 1; auto. Qed.
  Lemma ok_choice_env es en p v en' q : ok (EChoice es) en p v en' q -> en' = en.
  Proof. induction es as [|e es IH]; intros H; [inversion H|]. apply oi_choice in H as [[H _]|H]; auto. Qed.
  Lemma oi_star e en p v en' q : ok (EStar e) en p v en' q -> en' = en /\ exists l, v = VList l /\ okt e p l q.
  Proof. inversion 1; subst; eauto. Qed.
  Lemma oi_plus e en p v en' q : ok (EPlus e) en p v en' q -> en' = en /\ exists x l, v = VList (x :: l) /\ okt e p (x :: l) q.
  Proof. inversion 1; subst; eauto. Qed.
  Lemma oi_lit w rs en p v en' q : ok (ELit w rs) en p v en' q -> en' = en /\ Steps p q /\ lit_text rs (seg p q).
  Proof. inversion 1; subst; eauto. Qed.
End Ok.

(** ** Inversion of successful derivations *)
Section Inv.
  Variable ign : bool.
  Variable g : grammar.
  Ltac inv := match goal with H : peg _ _ _ _ _ _ |- _ => remember (POk _ _ _) as r0 eqn:Er in H; inversion H; subst end;
    try match goal with H : _ = PFail \/ _ = PAbort |- _ => destruct H; subst end;
    try discriminate; repeat match goal with H : POk _ _ _ = POk _ _ _ |- _ => inversion H; subst; clear H end.
  Lemma pi_act a e en p v en' q : peg ign g (EAct a e) en p (POk v en' q) -> exists v0, peg ign g e en p (POk v0 en' q) /\
    run_action ign (Some []) a en' (pt_pos p) (seg p q) = RVal v.
  Proof. intros H. inv. eauto. Qed.
  Lemma pi_lab l e en p v en' q : peg ign g (ELab l e) en p (POk v en' q) -> en' = bind l v en /\ exists en1, peg ign g e [] p (POk v en1 q).
  Proof. intros H. inv. eauto. Qed.
  Lemma pi_opt e en p v en' q : peg ign g (EOpt e) en p (POk v en' q) -> en' = en /\
    ((exists en1, peg ign g e [] p (POk v en1 q)) \/ (v = VNil /\ q = p /\ peg ign g e [] p PFail)).
  Proof. intros H. inv; eauto 6. Qed.
  Lemma pi_not e en p v en' q : peg ign g (ENot e) en p (POk v en' q) -> en' = en /\ q = p /\ peg ign g e [] p PFail.
  Proof. intros H. inv; eauto. Qed.
  Lemma pi_choice e es en p v en' q : peg ign g (EChoice (e :: es)) en p (POk v en' q) ->
    (en' = en /\ exists en1, peg ign g e [] p (POk v en1 q)) \/ (peg ign g e [] p PFail /\ peg ign g (EChoice es) en p (POk v en' q)).
  Proof. intros H. inv; eauto. Qed.
  Lemma pi_choice0 en p v en' q : peg ign g (EChoice []) en p (POk v en' q) -> False.
  Proof. intros H. inv. Qed.
  Lemma pi_seq e es en p v en' q : peg ign g (ESeq (e :: es)) en p (POk v en' q) ->
    exists v1 en1 q1 l, peg ign g e en p (POk v1 en1 q1) /\ peg ign g (ESeq es) en1 q1 (POk (VList l) en' q) /\ v = VList (v1 :: l).
  Proof.
    intros H. inv. match goal with H : pegs _ _ _ _ _ _ |- _ => remember (POk _ _ _) as r1 eqn:Er in H; inversion H; subst end;
    try match goal with H : _ = PFail \/ _ = PAbort |- _ => destruct H; subst end; try discriminate.
    match goal with H : POk _ _ _ = POk _ _ _ |- _ => inversion H; subst end. eexists _, _, _, _. split; [eassumption|]. split; [apply peg_seq; eassumption|reflexivity].
  Qed.
  Lemma pi_seq0 en p v en' q : peg ign g (ESeq []) en p (POk v en' q) -> v = VList [] /\ en' = en /\ q = p.
  Proof.
    intros H. inv. match goal with H : pegs _ _ _ _ _ _ |- _ => remember (POk _ _ _) as r1 eqn:Er in H; inversion H; subst end.
    match goal with H : POk _ _ _ = POk _ _ _ |- _ => inversion H; subst end. auto.
  Qed.
  Lemma pi_star e en p v en' q : peg ign g (EStar e) en p (POk v en' q) -> en' = en /\ exists l, v = VList l /\ pegt ign g e p (Some (l, q)).
  Proof. intros H. inv. eauto. Qed.
  Lemma pi_plus e en p v en' q : peg ign g (EPlus e) en p (POk v en' q) -> en' = en /\ exists x l, v = VList (x :: l) /\ pegt ign g e p (Some (x :: l, q)).
  Proof. intros H. inv. eauto. Qed.
  Lemma pi_lit w rs en p v en' q : peg ign g (ELit w rs) en p (POk v en' q) -> en' = en /\ lit_end rs p = Some q /\ v = VBytes (seg p q).
  Proof. intros H. inv. eauto. Qed.
  Lemma pi_lit_no w rs en p : peg ign g (ELit w rs) en p PFail -> lit_end rs p = None.
  Proof. inversion 1; subst; auto; match goal with H : PFail = POk _ _ _ |- _ => discriminate end. Qed.
  Lemma pi_any en p v en' q : peg ign g EAny en p (POk v en' q) -> en' = en /\ pt_rest p <> [] /\ q = advance_pt p.
  Proof. intros H. inv. match goal with H : one _ _ = _ |- _ => unfold one in H; inversion H; subst end. auto. Qed.
  Lemma pi_class w cs rs i en p v en' q : peg ign g (EClass w cs rs i) en p (POk v en' q) ->
    en' = en /\ pt_rest p <> [] /\ class_match cs rs i (fst (decode_rune (pt_rest p))) = true /\ q = advance_pt p.
  Proof. intros H. inv. match goal with H : one _ _ = _ |- _ => unfold one in H; inversion H; subst end. auto. Qed.
  Lemma pi_soft m en p v en' q : peg ign g (EAndCode (PPushError m)) en p (POk v en' q) -> False.
  Proof. intros H. inv. Qed.
  Lemma pi_fatal m en p v en' q : peg ign g (EAndCode (PFatalError m)) en p (POk v en' q) -> False.
  Proof. intros H. inv. Qed.
  Lemma pti e p l q : pegt ign g e p (Some (l, q)) ->
    match l with
    | [] => q = p /\ peg ign g e [] p PFail
    | v :: l' => exists en' q1, peg ign g e [] p (POk v en' q1) /\ pegt ign g e q1 (Some (l', q))
    end.
  Proof.
    intros H. remember (Some (l, q)) as o eqn:Eo. destruct H; try discriminate Eo; inversion Eo; subst; eauto.
  Qed.
  Lemma pi_state c en p v en' q : peg ign g (EStateCode c) en p (POk v en' q) -> en' = en /\ q = p.
  Proof. intros H. inv. auto. Qed.
End Inv.
