(** Cost in tokens: an expression without references counts as one step.

    [tev e s r k]: as [cev], where a whole token (a gap, a name, a string, an
    operator ...) costs 1.  [cev_tev]: the real cost is at most the cost in
    tokens times [leaf_cost] * (1 + length of what remains). *)
From Coq Require Import List NArith ZArith Bool String Arith Lia.
From Verif Require Import Bytes Utf8 F64 Ast Peg Actions Engine Parser GrammarGen QuoteFacts PosFacts Run EngineFacts
  Termination LimitFacts MemoFacts Rules Cost CostFacts CostLex.
Import ListNotations.
Local Notation len := (@List.length N).

Definition leaf_cost : nat := 500.
Definition leaf (e : expr) : bool := match lxg e with Some K => la K <=? leaf_cost | None => false end.
(** the other expressions are of these forms *)
Fixpoint tok (e : expr) : bool :=
  leaf e ||
  match e with
  | EAct _ e | ELab _ e | EOpt e | EStar e => tok e
  | EChoice l | ESeq l => forallb tok l
  | ERef n => match find_rule n gen_grammar with Some _ => true | None => false end
  | _ => false
  end.

Inductive tev : expr -> bytes -> cres -> nat -> Prop :=
| t_leaf e s r k : leaf e = true -> ce e s r k -> tev e s r 1
| t_act a e s r k : leaf (EAct a e) = false -> tev e s r k -> tev (EAct a e) s r (S k)
| t_act_panic a e s q k : leaf (EAct a e) = false -> tev e s (COk q) k -> tev (EAct a e) s CPanic (S k)
| t_lab l e s r k : leaf (ELab l e) = false -> tev e s r k -> tev (ELab l e) s r (S k)
| t_opt e s r k : leaf (EOpt e) = false -> tev e s r k -> r <> CFail -> tev (EOpt e) s r (S k)
| t_opt_no e s k : leaf (EOpt e) = false -> tev e s CFail k -> tev (EOpt e) s (COk s) (S k)
| t_ref n e s r k : find_rule n gen_grammar = Some e -> tev e s r k -> tev (ERef n) s r (S k)
| t_seq es s r k : leaf (ESeq es) = false -> tevs es s r k -> tev (ESeq es) s r (S k)
| t_choice es s r k : leaf (EChoice es) = false -> tevc es s r k -> tev (EChoice es) s r (S k)
| t_star e s r k : leaf (EStar e) = false -> tevt e s r k -> tev (EStar e) s r (S k)
with tevs : list expr -> bytes -> cres -> nat -> Prop :=
| ts_nil s : tevs [] s (COk s) 0
| ts_ok e es s q r k k' : tev e s (COk q) k -> tevs es q r k' -> tevs (e :: es) s r (k + k')
| ts_no e es s r k : tev e s r k -> (r = CFail \/ r = CPanic) -> tevs (e :: es) s r k
with tevc : list expr -> bytes -> cres -> nat -> Prop :=
| tc_nil s : tevc [] s CFail 0
| tc_ok e es s r k : tev e s r k -> r <> CFail -> tevc (e :: es) s r k
| tc_next e es s r k k' : tev e s CFail k -> tevc es s r k' -> tevc (e :: es) s r (k + k')
with tevt : expr -> bytes -> cres -> nat -> Prop :=
| tt_stop e s k : tev e s CFail k -> tevt e s (COk s) k
| tt_panic e s k : tev e s CPanic k -> tevt e s CPanic k
| tt_more e s q r k k' : tev e s (COk q) k -> tevt e q r k' -> tevt e s r (k + k').

Scheme tev_mind := Minimality for tev Sort Prop
  with tevs_mind := Minimality for tevs Sort Prop
  with tevc_mind := Minimality for tevc Sort Prop
  with tevt_mind := Minimality for tevt Sort Prop.
Combined Scheme tev_mutind from tev_mind, tevs_mind, tevc_mind, tevt_mind.

Lemma gen_tok : forallb (fun x => tok (snd x)) gen_grammar = true.
Proof. vm_compute. reflexivity. Qed.

Section Link.
  Variable n : nat.
  Notation V := (leaf_cost * (1 + n)).
  Lemma V_pos : 1 <= V. Proof. unfold leaf_cost. lia. Qed.

  Lemma leaf_bound e s r k : lits_ok e = true -> leaf e = true -> ce e s r k -> len s <= n -> k <= V.
  Proof.
    intros Hl H C Hs. unfold leaf in H. destruct (lxg e) as [K|] eqn:E; [|discriminate]. apply Nat.leb_le in H.
    pose proof (lxg_any _ _ _ _ _ Hl E C) as B. etransitivity; [exact B|]. apply Nat.mul_le_mono; lia.
  Qed.
  Lemma tok_leaf e : leaf e = true -> tok e = true.
  Proof. intros H. destruct e; cbn [tok]; rewrite H; reflexivity. Qed.

  Ltac leaf_case C :=
    match goal with |- context [tev ?e _ _ _] => destruct (leaf e) eqn:Lf; [
      exists 1; split; [eapply t_leaf; [exact Lf|exact C]|
        rewrite Nat.mul_1_r; eapply leaf_bound; [eassumption|exact Lf|exact C|assumption]]|] end.

  Lemma cev_tev_all :
    (forall e s r k, ce e s r k -> lits_ok e = true -> tok e = true -> len s <= n -> exists k', tev e s r k' /\ k <= V * k') /\
    (forall es s r k, cevs gg es s r k -> forallb lits_ok es = true -> forallb tok es = true -> len s <= n -> exists k', tevs es s r k' /\ k <= V * k') /\
    (forall es s r k, cevc gg es s r k -> forallb lits_ok es = true -> forallb tok es = true -> len s <= n -> exists k', tevc es s r k' /\ k <= V * k') /\
    (forall e s r k, cevt gg e s r k -> lits_ok e = true -> tok e = true -> len s <= n -> exists k', tevt e s r k' /\ k <= V * k').
  Proof.
    pose proof V_pos as Vp. generalize V_pos; intros _. 
    assert (Vs : forall k k', k <= V * k' -> S k <= V * S k') by (intros; rewrite Nat.mul_succ_r; lia).
    assert (Va : forall k k1 k' k1', k <= V * k' -> k1 <= V * k1' -> k + k1 <= V * (k' + k1')) by (intros; rewrite Nat.mul_add_distr_l; lia).
    apply cev_mutind.
    - intros e s r P Hl Ht Hs. pose proof (c_prim gg e s r P) as C. leaf_case C.
      destruct e; cbn [tok] in Ht; rewrite Lf in Ht; try discriminate Ht; discriminate P.
    - intros m s F Hl Ht Hs. cbn [tok] in Ht. rewrite F in Ht. rewrite orb_false_r in Ht. vm_compute in Ht. discriminate.
    - intros a e s r k C0 IH Hl Ht Hs. pose proof (c_act gg a _ _ _ _ C0) as C. leaf_case C.
      cbn [tok] in Ht. rewrite Lf in Ht. destruct (IH Hl Ht Hs) as (k' & T & B). exists (S k'). split; [now apply t_act|auto].
    - intros a e s q k C0 IH Hl Ht Hs. pose proof (c_act_panic gg a _ _ _ _ C0) as C. leaf_case C.
      cbn [tok] in Ht. rewrite Lf in Ht. destruct (IH Hl Ht Hs) as (k' & T & B). exists (S k'). split; [eapply t_act_panic; eauto|auto].
    - intros a e s r k C0 IH Hl Ht Hs. pose proof (c_lab gg a _ _ _ _ C0) as C. leaf_case C.
      cbn [tok] in Ht. rewrite Lf in Ht. destruct (IH Hl Ht Hs) as (k' & T & B). exists (S k'). split; [now apply t_lab|auto].
    - intros e s q k C0 IH Hl Ht Hs. pose proof (c_not gg _ _ _ _ C0) as C. leaf_case C. cbn [tok] in Ht. rewrite Lf in Ht. discriminate.
    - intros e s k C0 IH Hl Ht Hs. pose proof (c_not_ok gg _ _ _ C0) as C. leaf_case C. cbn [tok] in Ht. rewrite Lf in Ht. discriminate.
    - intros e s k C0 IH Hl Ht Hs. pose proof (c_not_panic gg _ _ _ C0) as C. leaf_case C. cbn [tok] in Ht. rewrite Lf in Ht. discriminate.
    - intros e s r k C0 IH Hr Hl Ht Hs. pose proof (c_opt gg _ _ _ _ C0 Hr) as C. leaf_case C.
      cbn [tok] in Ht. rewrite Lf in Ht. destruct (IH Hl Ht Hs) as (k' & T & B). exists (S k'). split; [now apply t_opt|auto].
    - intros e s k C0 IH Hl Ht Hs. pose proof (c_opt_no gg _ _ _ C0) as C. leaf_case C.
      cbn [tok] in Ht. rewrite Lf in Ht. destruct (IH Hl Ht Hs) as (k' & T & B). exists (S k'). split; [now apply t_opt_no|auto].
    - intros m e s r k F C0 IH Hl Ht Hs.
      destruct (IH (forallb_rule m e gen_lits_ok F) (forallb_rule m e gen_tok F) Hs) as (k' & T & B). exists (S k').
      split; [eapply t_ref; eauto|auto].
    - intros es s r k C0 IH Hl Ht Hs. pose proof (c_seq gg _ _ _ _ C0) as C. leaf_case C.
      cbn [tok] in Ht. rewrite Lf in Ht. destruct (IH Hl Ht Hs) as (k' & T & B). exists (S k'). split; [now apply t_seq|auto].
    - intros es s r k C0 IH Hl Ht Hs. pose proof (c_choice gg _ _ _ _ C0) as C. leaf_case C.
      cbn [tok] in Ht. rewrite Lf in Ht. destruct (IH Hl Ht Hs) as (k' & T & B). exists (S k'). split; [now apply t_choice|auto].
    - intros e s r k C0 IH Hl Ht Hs. pose proof (c_star gg _ _ _ _ C0) as C. leaf_case C.
      cbn [tok] in Ht. rewrite Lf in Ht. destruct (IH Hl Ht Hs) as (k' & T & B). exists (S k'). split; [now apply t_star|auto].
    - intros e s q r k k' C0 IH C1 IH1 Hl Ht Hs. pose proof (c_plus gg _ _ _ _ _ _ C0 C1) as C. leaf_case C. cbn [tok] in Ht. rewrite Lf in Ht. discriminate.
    - intros e s r k C0 IH Hr Hl Ht Hs. pose proof (c_plus_no gg _ _ _ _ C0 Hr) as C. leaf_case C. cbn [tok] in Ht. rewrite Lf in Ht. discriminate.
    - intros s _ _ _. exists 0. split; [constructor|lia].
    - intros e es s q r k k' C0 IH C1 IH1 Hl Ht Hs. cbn [forallb] in Hl, Ht. apply andb_true_iff in Hl as [Hl1 Hl2]. apply andb_true_iff in Ht as [Ht1 Ht2].
      pose proof (ce_short _ _ _ _ Hl1 C0) as [Sh _]. destruct (IH Hl1 Ht1 Hs) as (k1 & T1 & B1).
      destruct (IH1 Hl2 Ht2) as (k2 & T2 & B2); [lia|]. exists (k1 + k2). split; [eapply ts_ok; eauto|auto].
    - intros e es s r k C0 IH Hr Hl Ht Hs. cbn [forallb] in Hl, Ht. apply andb_true_iff in Hl as [Hl1 Hl2]. apply andb_true_iff in Ht as [Ht1 Ht2].
      destruct (IH Hl1 Ht1 Hs) as (k1 & T1 & B1). exists k1. split; [now apply ts_no|auto].
    - intros s _ _ _. exists 0. split; [constructor|lia].
    - intros e es s r k C0 IH Hr Hl Ht Hs. cbn [forallb] in Hl, Ht. apply andb_true_iff in Hl as [Hl1 Hl2]. apply andb_true_iff in Ht as [Ht1 Ht2].
      destruct (IH Hl1 Ht1 Hs) as (k1 & T1 & B1). exists k1. split; [now apply tc_ok|auto].
    - intros e es s r k k' C0 IH C1 IH1 Hl Ht Hs. cbn [forallb] in Hl, Ht. apply andb_true_iff in Hl as [Hl1 Hl2]. apply andb_true_iff in Ht as [Ht1 Ht2].
      destruct (IH Hl1 Ht1 Hs) as (k1 & T1 & B1). destruct (IH1 Hl2 Ht2 Hs) as (k2 & T2 & B2). exists (k1 + k2). split; [eapply tc_next; eauto|auto].
    - intros e s k C0 IH Hl Ht Hs. destruct (IH Hl Ht Hs) as (k1 & T1 & B1). exists k1. split; [now apply tt_stop|auto].
    - intros e s k C0 IH Hl Ht Hs. destruct (IH Hl Ht Hs) as (k1 & T1 & B1). exists k1. split; [now apply tt_panic|auto].
    - intros e s q r k k' C0 IH C1 IH1 Hl Ht Hs. pose proof (ce_short _ _ _ _ Hl C0) as [Sh _].
      destruct (IH Hl Ht Hs) as (k1 & T1 & B1). destruct (IH1 Hl Ht) as (k2 & T2 & B2); [lia|]. exists (k1 + k2). split; [eapply tt_more; eauto|auto].
  Qed.
End Link.

(** ** Going back, and inversion *)
Lemma tev_cev_all :
  (forall e s r k, tev e s r k -> exists k', ce e s r k') /\
  (forall es s r k, tevs es s r k -> exists k', cevs gg es s r k') /\
  (forall es s r k, tevc es s r k -> exists k', cevc gg es s r k') /\
  (forall e s r k, tevt e s r k -> exists k', cevt gg e s r k').
Proof.
  apply tev_mutind; intros;
    repeat match goal with H : exists _, _ |- _ => destruct H end; eexists;
    try eassumption; try (econstructor; eassumption).
Qed.
Lemma tev_ce e s r k : tev e s r k -> exists k', ce e s r k'.
Proof. apply tev_cev_all. Qed.
Lemma tev_short e s r k : lits_ok e = true -> tev e s r k -> shorter (nul gen_nul e) s r.
Proof. intros H T. apply tev_ce in T as (k' & C). eapply ce_short; eauto. Qed.
Lemma tev_alike e s r k r' k' : tev e s r k -> tev e s r' k' -> alike r r'.
Proof. intros T T'. apply tev_ce in T as (? & C), T' as (? & C'). eapply ce_alike; eauto. Qed.
