(** General facts about [cev], and the cost of the expressions without references
    (tokens, gaps): linear or quadratic in what remains. *)
From Coq Require Import List NArith Bool String Arith Lia.
From Verif Require Import Bytes Utf8 F64 Ast Peg Actions Engine Parser GrammarGen QuoteFacts PosFacts Run EngineFacts
  Termination LimitFacts MemoFacts Cost.
Import ListNotations.
Local Notation len := (@List.length N).

Lemma adv_len s : len (adv s) <= len s.
Proof. unfold adv. rewrite skipn_length. lia. Qed.
Lemma adv_lt s : s <> [] -> len (adv s) < len s.
Proof.
  intros H. unfold adv. rewrite skipn_length. pose proof (decode_width s H). lia.
Qed.
Lemma lit_rest_len rs : forall s q, lit_rest rs s = Some q -> len q <= len s.
Proof.
  induction rs as [|r rs IH]; intros s q H; cbn in H; [injection H as ->; lia|].
  destruct (_ =? _)%N; [|discriminate]. apply IH in H. pose proof (adv_len s). lia.
Qed.
Lemma lit_rest_lt rs s q : forallb (fun r => negb (r =? RuneError)%N) rs = true -> rs <> [] ->
  lit_rest rs s = Some q -> len q < len s.
Proof.
  destruct rs as [|r rs]; [congruence|]. cbn. intros H _. apply andb_true_iff in H as [H _].
  destruct (N.eqb_spec (fst (decode_rune s)) r) as [E|]; [|discriminate]. intros K.
  assert (s <> []). { apply decode_nonempty. rewrite E. now apply negb_true_iff, N.eqb_neq in H. }
  apply lit_rest_len in K. pose proof (adv_lt s H0). lia.
Qed.

Section Len.
  Variable g : grammar.
  Variable nt : string -> bool.
  Hypothesis Hg : grammar_lits_ok g = true.
  Hypothesis Hnt : forall n e, find_rule n g = Some e -> nt n = false -> nul nt e = false.

  Definition shorter (nul : bool) (s : bytes) (r : cres) : Prop :=
    match r with COk q => len q <= len s /\ (nul = false -> len q < len s) | _ => True end.

  Lemma prim_shorter e s r : lits_ok e = true -> cprim e s = Some r -> shorter (nul nt e) s r.
  Proof.
    intros Hl H. destruct e; cbn [cprim] in H; try discriminate.
    - destruct p; injection H as <-; cbn; auto. split; [lia|discriminate].
    - injection H as <-. cbn. split; [lia|discriminate].
    - injection H as <-. destruct s; cbn [shorter]; auto. split; [apply adv_len|intros _; now apply adv_lt].
    - injection H as <-. destruct s; cbn [shorter]; auto. destruct (class_match _ _ _ _); cbn [shorter]; auto.
      split; [apply adv_len|intros _; now apply adv_lt].
    - injection H as <-. destruct (lit_rest runes s) eqn:E; cbn [shorter]; auto. split; [now apply lit_rest_len in E|].
      intros K. eapply lit_rest_lt; eauto. cbn in K. destruct runes; [discriminate|discriminate].
  Qed.

  Lemma cost_shorter :
    (forall e s r k, cev g e s r k -> lits_ok e = true -> shorter (nul nt e) s r) /\
    (forall es s r k, cevs g es s r k -> forallb lits_ok es = true -> shorter (forallb (nul nt) es) s r) /\
    (forall es s r k, cevc g es s r k -> forallb lits_ok es = true -> shorter (existsb (nul nt) es) s r) /\
    (forall e s r k, cevt g e s r k -> lits_ok e = true -> shorter true s r).
  Proof.
    apply cev_mutind; try solve [intros; exact I]; try solve [intros; cbn [lits_ok nul] in *; auto].
    - intros e s r H Hl. now apply prim_shorter.
    - intros e s k _ _ Hl. cbn. split; [lia|discriminate].
    - intros e s r k _ IH Hr Hl. specialize (IH Hl). destruct r; cbn in *; auto. split; [tauto|discriminate].
    - intros e s k _ _ Hl. cbn. split; [lia|discriminate].
    - intros n e s r k F _ IH _.
      assert (He : lits_ok e = true).
      { apply find_rule_in in F. unfold grammar_lits_ok in Hg. rewrite forallb_forall in Hg. exact (Hg _ F). }
      specialize (IH He). destruct r; cbn in *; auto. split; [tauto|]. intros K. apply IH. eapply Hnt; eauto.
    - intros e s q r k k' _ IH1 _ IH2 Hl. specialize (IH1 Hl). specialize (IH2 Hl). destruct r; cbn in *; auto.
      split; [lia|]. intros K. destruct IH1 as [_ K1]. specialize (K1 K). lia.
    - intros s _. cbn. split; [lia|discriminate].
    - intros e es s q r k k' _ IH1 _ IH2 Hl. cbn in Hl. apply andb_true_iff in Hl as [Hl1 Hl2].
      specialize (IH1 Hl1). specialize (IH2 Hl2). destruct r; cbn in *; auto. split; [lia|].
      intros K. apply andb_false_iff in K as [K|K]; [destruct IH1 as [? K1]; specialize (K1 K); lia|destruct IH2 as [? K1]; specialize (K1 K); lia].
    - intros e es s r k _ IH [-> | ->] Hl; exact I.
    - intros e es s r k _ IH Hr Hl. cbn in Hl. apply andb_true_iff in Hl as [Hl1 Hl2].
      specialize (IH Hl1). destruct r; cbn in *; auto. split; [tauto|]. intros K. apply orb_false_iff in K as [K _]. tauto.
    - intros e es s r k k' _ IH1 _ IH2 Hl. cbn in Hl. apply andb_true_iff in Hl as [Hl1 Hl2].
      specialize (IH2 Hl2). destruct r; cbn in *; auto. split; [tauto|]. intros K. apply orb_false_iff in K as [_ K]. tauto.
    - intros e s k _ _ _. cbn. split; [lia|discriminate].
    - intros e s q r k k' _ IH1 _ IH2 Hl. specialize (IH1 Hl). specialize (IH2 Hl). destruct r; cbn in *; auto.
      split; [lia|discriminate].
  Qed.

  (** Two evaluations at the same place end alike, unless one is aborted. *)
  Definition alike (r r' : cres) : Prop := r = CPanic \/ r' = CPanic \/ r = r'.

  Lemma prim_cost e s r k r0 : cprim e s = Some r0 -> cev g e s r k -> r = r0 /\ k = 1.
  Proof. intros H K. destruct e; try discriminate H; inversion K; subst; try discriminate; (split; congruence). Qed.

  Lemma cost_alike :
    (forall e s r k, cev g e s r k -> forall r' k', cev g e s r' k' -> alike r r') /\
    (forall es s r k, cevs g es s r k -> forall r' k', cevs g es s r' k' -> alike r r') /\
    (forall es s r k, cevc g es s r k -> forall r' k', cevc g es s r' k' -> alike r r') /\
    (forall e s r k, cevt g e s r k -> forall r' k', cevt g e s r' k' -> alike r r').
  Proof.
    unfold alike. apply cev_mutind.
    - intros e s r H r' k' K. destruct (prim_cost _ _ _ _ _ H K). subst. auto.
    - intros n s F r' k' K. inversion K; subst; try discriminate; auto. congruence.
    - intros a e s r k _ IH r' k' K. inversion K; subst; try discriminate; auto. eauto.
    - auto.
    - intros l e s r k _ IH r' k' K. inversion K; subst; try discriminate; eauto.
    - intros e s q k _ IH r' k' K. inversion K; subst; try discriminate; auto.
      match goal with H : cev _ _ _ _ _ |- _ => destruct (IH _ _ H) as [X|[X|X]]; discriminate X end.
    - intros e s k _ IH r' k' K. inversion K; subst; try discriminate; auto.
      match goal with H : cev _ _ _ _ _ |- _ => destruct (IH _ _ H) as [X|[X|X]]; discriminate X end.
    - auto.
    - intros e s r k _ IH Hr r' k' K. inversion K; subst; try discriminate; eauto.
      match goal with H : cev _ _ _ _ _ |- _ => destruct (IH _ _ H) as [X|[X|X]]; auto; congruence end.
    - intros e s k _ IH r' k' K. inversion K; subst; try discriminate; auto.
      match goal with H : cev _ _ _ _ _ |- _ => destruct (IH _ _ H) as [X|[X|X]]; auto; congruence end.
    - intros n e s r k F _ IH r' k' K. inversion K; subst; try discriminate; [congruence|].
      match goal with H : find_rule _ _ = Some _ |- _ => rewrite F in H; injection H as <- end. eauto.
    - intros es s r k _ IH r' k' K. inversion K; subst; try discriminate; eauto.
    - intros es s r k _ IH r' k' K. inversion K; subst; try discriminate; eauto.
    - intros e s r k _ IH r' k' K. inversion K; subst; try discriminate; eauto.
    - intros e s q r k k0 _ IH1 _ IH2 r' k' K. inversion K; subst; try discriminate.
      + match goal with H : cev _ _ _ _ _, H' : cevt _ _ _ _ _ |- _ => destruct (IH1 _ _ H) as [X|[X|X]]; try discriminate X; injection X as <-; exact (IH2 _ _ H') end.
      + match goal with H : cev _ _ _ _ _, H' : _ \/ _ |- _ => destruct H' as [-> | ->]; destruct (IH1 _ _ H) as [X|[X|X]]; try discriminate X; auto end.
    - intros e s r k _ IH Hr r' k' K. inversion K; subst; try discriminate.
      + match goal with H : cev _ _ _ _ _ |- _ => destruct (IH _ _ H) as [X|[X|X]]; subst; try discriminate X; auto end. destruct Hr; discriminate.
      + eauto.
    - intros s r' k' K. inversion K; subst. auto.
    - intros e es s q r k k0 _ IH1 _ IH2 r' k' K. inversion K; subst.
      + match goal with H : cev _ _ _ _ _, H' : cevs _ _ _ _ _ |- _ => destruct (IH1 _ _ H) as [X|[X|X]]; try discriminate X; injection X as <-; exact (IH2 _ _ H') end.
      + match goal with H : cev _ _ _ _ _, H' : _ \/ _ |- _ => destruct H' as [-> | ->]; destruct (IH1 _ _ H) as [X|[X|X]]; try discriminate X; auto end.
    - intros e es s r k _ IH Hr r' k' K. inversion K; subst.
      + match goal with H : cev _ _ _ _ _ |- _ => destruct (IH _ _ H) as [X|[X|X]]; subst; try discriminate X; auto end. destruct Hr; discriminate.
      + eauto.
    - intros s r' k' K. inversion K; subst. auto.
    - intros e es s r k _ IH Hr r' k' K. inversion K; subst.
      + eauto.
      + match goal with H : cev _ _ _ _ _ |- _ => destruct (IH _ _ H) as [X|[X|X]]; auto; congruence end.
    - intros e es s r k k0 _ IH1 _ IH2 r' k' K. inversion K; subst.
      + match goal with H : cev _ _ _ _ _ |- _ => destruct (IH1 _ _ H) as [X|[X|X]]; auto; congruence end.
      + eauto.
    - intros e s k _ IH r' k' K. inversion K; subst; auto.
      match goal with H : cev _ _ _ _ _ |- _ => destruct (IH _ _ H) as [X|[X|X]]; auto; congruence end.
    - auto.
    - intros e s q r k k0 _ IH1 _ IH2 r' k' K. inversion K; subst; auto.
      + match goal with H : cev _ _ _ _ _ |- _ => destruct (IH1 _ _ H) as [X|[X|X]]; auto; congruence end.
      + match goal with H : cev _ _ _ _ _, H' : cevt _ _ _ _ _ |- _ => destruct (IH1 _ _ H) as [X|[X|X]]; try discriminate X; injection X as <-; exact (IH2 _ _ H') end.
  Qed.
End Len.
