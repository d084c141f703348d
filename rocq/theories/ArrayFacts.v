(** The elements of an array: what the array rule reads and what it keeps (C41). *)
From Coq Require Import List NArith ZArith Bool String Arith Lia.
From Verif Require Import Bytes Utf8 F64 Ast Peg Actions Engine Parser GrammarGen PosFacts Run EngineFacts Matches
  ParseFacts PegSem PegFacts LexFacts Rules Sound Termination.
Import ListNotations.

Section Arr.
  Variable ign : bool.
  Notation P := (peg ign gen_grammar).
  (** The value rule reads the text from [p] to [q] as [w]. *)
  Definition value_at (p : point) (w : val) (q : point) : Prop := exists en, P (ERef "value") [] p (POk w en q).
  Definition gap_at (p q : point) : Prop := Steps p q /\ gap_text (seg p q).
  Definition char_at (c : N) (p q : point) : Prop := Steps p q /\ seg p q = [c].
  (** From [p] to [q]: (gap, comma, gap, value), repeated *)
  Inductive more_at : point -> list val -> point -> Prop :=
  | more_none p : more_at p [] p
  | more_one p p1 p2 p3 w p4 ws q :
      gap_at p p1 -> char_at 44%N p1 p2 -> gap_at p2 p3 -> value_at p3 w p4 -> more_at p4 ws q -> more_at p (w :: ws) q.
  (** From [p] to [q]: the values [ws], separated by commas *)
  Definition list_at (p : point) (ws : list val) (q : point) : Prop :=
    match ws with
    | [] => q = p
    | w :: ws' => exists p1 p2, gap_at p p1 /\ value_at p1 w p2 /\ more_at p2 ws' q
    end.
  (** an array with the elements [ws] *)
  Definition array_at (p : point) (ws : list val) (q : point) : Prop :=
    exists p1 p2 p3, char_at 91%N p p1 /\ list_at p1 ws p2 /\ gap_at p2 p3 /\ char_at 93%N p3 q.
  (** What is kept: everything but a plugin in the first place *)
  Definition kept (ws : list val) : list val := match ws with VPlugin _ :: ws' => ws' | _ => ws end.
  Definition same_value (w : val) (a : attr) : Prop := exists a0 c, w = VAttr a0 /\ a = set_attr_com a0 c.

  Lemma gap_pieces en p v en' q : P gap_e en p (POk v en' q) -> en' = en /\ gap_at p q.
  Proof.
    intros H. pose proof (peg_steps _ _ gen_lits_ok _ _ _ _ _ _ H eq_refl) as S. pose proof (peg_matches _ _ gen_lits_ok _ _ _ _ _ _ H eq_refl) as M.
    apply pi_star in H as (-> & _). split; [reflexivity|]. split; [exact S|]. exact (gap_matches _ _ M).
  Qed.
  Lemma gaps_pieces en p v en' q : P gaps_e en p (POk v en' q) -> en' = en /\ gap_at p q.
  Proof. intros H. apply pi_act in H as (v0 & H & _). exact (gap_pieces _ _ _ _ _ H). Qed.
  Lemma char_pieces w c en p v en' q : (c < 128)%N -> P (ELit w [c]) en p (POk v en' q) -> en' = en /\ char_at c p q.
  Proof.
    intros Hc H. apply pi_lit in H as (-> & E & _). split; [reflexivity|]. apply lit_end_text in E as [S T].
    - split; [exact S|]. apply lit_ascii in T; [exact T|]. constructor; [exact Hc|constructor].
    - cbn. unfold RuneError. destruct (N.eqb_spec c 65533); [lia|reflexivity].
  Qed.
  Lemma close_char c m en p v en' q : P (close c (fatal m)) en p (POk v en' q) -> en' = en /\ P (lit c) [] p (POk v [] q).
  Proof.
    intros H. apply pi_choice in H as [(-> & en1 & H)|[_ H]].
    - pose proof H as H0. apply pi_lit in H0 as (-> & _). auto.
    - apply pi_choice in H as [(_ & en1 & H)|[_ H]]; [now apply pi_fatal in H|now apply pi_choice0 in H].
  Qed.
  Lemma value_pieces en p v en' q : P (ERef "value") en p (POk v en' q) -> en' = en /\ value_at p v q.
  Proof.
    intros H. remember (ERef "value") as e eqn:Ee. remember (POk v en' q) as r eqn:Er. inversion H; subst; try discriminate;
      try match goal with H : _ = PFail \/ _ = PAbort |- _ => destruct H; subst; discriminate end.
    match goal with H : ERef _ = ERef _ |- _ => inversion H; subst end. match goal with H : POk _ _ _ = POk _ _ _ |- _ => inversion H; subst end.
    split; [reflexivity|]. exists []. eapply peg_ref; eassumption.
  Qed.
  Ltac sq H := let v := fresh "v" in let en := fresh "en" in let q := fresh "q" in let l := fresh "l" in let H1 := fresh "H" in
    apply pi_seq in H as (v & en & q & l & H1 & H & ?).
  Lemma more_pieces p v en q : P more_value_e [] p (POk v en q) ->
    exists p1 p2 p3 w, gap_at p p1 /\ char_at 44%N p1 p2 /\ gap_at p2 p3 /\ value_at p3 w q /\ exists a, v = VAttr a /\ same_value w a.
  Proof.
    intros H. apply pi_act in H as (v0 & H & E). sq H. sq H. sq H. sq H. sq H. apply pi_seq0 in H as (_ & -> & ->).
    apply gaps_pieces in H0 as (-> & G1). apply pi_state in H2 as (-> & ->). apply char_pieces in H4 as (-> & C1); [|reflexivity].
    apply pi_lab in H6 as (-> & ? & H6). apply gap_pieces in H6 as (_ & G2). apply pi_lab in H8 as (-> & ? & H8). apply value_pieces in H8 as (_ & V).
    eexists _, _, _, _. repeat (split; [eassumption|]). cbn in E. unfold act_attribute_comment in E. destruct v5; try discriminate E. inversion E; subst.
    eexists. split; [reflexivity|]. eexists _, _. split; reflexivity.
  Qed.
  Lemma more_list l : forall p q, pegt ign gen_grammar more_value_e p (Some (l, q)) ->
    exists ws as', more_at p ws q /\ attributes_loop l = inl as' /\ Forall2 same_value ws as'.
  Proof.
    induction l as [|v l IH]; intros p q H; apply pti in H.
    - destruct H as [-> _]. exists [], []. split; [constructor|]. split; [reflexivity|constructor].
    - destruct H as (en & q1 & H & K). apply more_pieces in H as (p1 & p2 & p3 & w & A1 & A2 & A3 & A4 & a & -> & S).
      destruct (IH _ _ K) as (ws & as' & M & E & F). exists (w :: ws), (a :: as'). split; [econstructor; eassumption|]. cbn. rewrite E. auto.
  Qed.
  Lemma values_pieces p v en q : P values_e [] p (POk v en q) ->
    exists w ws l, list_at p (w :: ws) q /\ v = VAttrs l /\ Forall2 same_value (kept (w :: ws)) l.
  Proof.
    intros H. apply pi_act in H as (v0 & H & E). sq H. sq H. sq H. apply pi_seq0 in H as (_ & -> & ->).
    apply pi_lab in H0 as (-> & ? & H0). apply gap_pieces in H0 as (_ & G1). apply pi_lab in H2 as (-> & ? & H2). apply value_pieces in H2 as (_ & V).
    apply pi_lab in H4 as (-> & ? & H4). apply pi_star in H4 as (_ & l3 & -> & H4). apply more_list in H4 as (ws & as' & M & A & F).
    exists v2, ws. cbn in E. unfold act_attributes in E. cbn [iface_slice] in E.
    assert (V' : exists en, P value_e [] q0 (POk v2 en q1)).
    { destruct V as (en0 & V). apply (peg_ref_ok _ _ _ value_e _ _ _ _ _) in V as (en1 & V); [eauto|]. rewrite rules_are_generated. reflexivity. }
    assert (K : (exists a, v2 = VAttr a) \/ exists x, v2 = VPlugin x).
    { destruct V' as (en0 & V').
      assert (Act : forall a e r, P (EAct a e) [] q0 (POk v2 r q1) -> exists t pos en, run_action ign (Some []) a en pos t = RVal v2).
      { intros a e r Ha. apply pi_act in Ha as (v' & _ & Ha). eauto. }
      apply pi_choice in V' as [(_ & en1 & V')|[_ V']].
      { right. apply (peg_ref_ok _ _ _ plugin_e _ _ _ _ _) in V' as (en2 & V'); [|rewrite rules_are_generated; reflexivity].
        apply Act in V' as (t & pos & en3 & V'). cbn in V'. unfold act_plugin in V'.
        repeat match type of V' with context [match ?x with _ => _ end] => destruct x; try discriminate V' end; inversion V'; eauto. }
      left. apply pi_choice in V' as [(_ & en1 & V')|[_ V']].
      { apply Act in V' as (t & pos & en3 & V'). cbn in V'. inversion V'; eauto. }
      apply pi_choice in V' as [(_ & en1 & V')|[_ V']].
      { apply pi_act in V' as (v' & V' & R). apply pi_lab in V' as (-> & ? & V'). cbn in R. inversion R; subst. apply pi_choice in V' as [(_ & ? & V')|[_ V']].
        - apply pi_act in V' as (v' & V' & R'). cbn in R'. unfold act_string in R'. destruct (inner _); [|discriminate R']. inversion R'; eauto.
        - apply pi_choice in V' as [(_ & ? & V')|[_ V']]; [|now apply pi_choice0 in V'].
          apply pi_act in V' as (v' & V' & R'). cbn in R'. unfold act_string in R'. destruct (inner _); [|discriminate R']. inversion R'; eauto. }
      apply pi_choice in V' as [(_ & en1 & V')|[_ V']].
      { apply Act in V' as (t & pos & en3 & V'). cbn in V'. unfold act_number in V'. destruct (parse_float t); [|discriminate V']. inversion V'; eauto. }
      apply pi_choice in V' as [(_ & en1 & V')|[_ V']].
      { apply (peg_ref_ok _ _ _ array_e _ _ _ _ _) in V' as (en2 & V'); [|rewrite rules_are_generated; reflexivity].
        apply Act in V' as (t & pos & en3 & V'). cbn in V'. unfold act_array in V'. destruct (lookup "values" en3); try discriminate V'; inversion V'; eauto. }
      apply pi_choice in V' as [(_ & en1 & V')|[_ V']].
      { apply (peg_ref_ok _ _ _ hash_e _ _ _ _ _) in V' as (en2 & V'); [|rewrite rules_are_generated; reflexivity].
        apply Act in V' as (t & pos & en3 & V'). cbn in V'. unfold act_hash in V'. destruct (lookup "entries" en3); try discriminate V'; inversion V'; eauto. }
      apply pi_choice in V' as [(_ & en1 & V')|[_ V']]; [now apply pi_soft in V'|now apply pi_choice0 in V']. }
    destruct K as [(a & ->)|(x' & ->)]; cbn [act_attribute_comment iface_slice app attributes_loop kept] in *.
    - rewrite A in E. inversion E; subst. eexists. split; [exists q0, q1; auto|]. split; [reflexivity|]. constructor; [|exact F]. eexists _, _. split; reflexivity.
    - rewrite A in E. inversion E; subst. eexists. split; [exists q0, q1; auto|]. split; [reflexivity|exact F].
  Qed.
  Theorem array_elements p v en q : P (ERef "array") [] p (POk v en q) ->
    exists ws l f, array_at p ws q /\ v = VAttr (AtArr zero_pos [] l [] f) /\ Forall2 same_value (kept ws) l.
  Proof.
    intros H. apply (peg_ref_ok _ _ _ array_e _ _ _ _ _) in H as (en1 & H); [|rewrite rules_are_generated; reflexivity].
    apply pi_act in H as (v0 & H & E). sq H. sq H. sq H. sq H. apply pi_seq0 in H as (_ & -> & ->).
    apply char_pieces in H0 as (-> & C1); [|reflexivity]. apply pi_lab in H2 as (-> & ? & H2). apply pi_lab in H4 as (-> & ? & H4).
    apply gap_pieces in H4 as (_ & G). apply close_char in H6 as (-> & H6). apply char_pieces in H6 as (_ & C2); [|reflexivity].
    apply pi_opt in H2 as (_ & [(? & H2)|(-> & -> & _)]).
    - apply values_pieces in H2 as (w & ws & l' & L & -> & F). cbn in E. inversion E; subst. eexists (w :: ws), l', _. split; [exists q0, q1, q2; auto|]. split; [reflexivity|exact F].
    - cbn in E. inversion E; subst. eexists [], [], _. split; [exists q0, q0, q2; cbn; auto|]. split; [reflexivity|constructor].
  Qed.
End Arr.
