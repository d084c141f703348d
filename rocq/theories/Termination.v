(** Termination: a fuel linear in the length of the input always suffices. *)
From Coq Require Import List NArith Bool String Arith Lia.
From Verif Require Import Bytes Utf8 F64 Ast Peg Actions Engine Parser GrammarGen QuoteFacts PosFacts Run EngineFacts.
Import ListNotations.

(** ** Which expressions can succeed without consuming input *)
Section Nullable.
  Variable nt : string -> bool.          (* per rule *)
  Fixpoint nul (e : expr) : bool :=
    match e with
    | EAct _ e | ELab _ e | EPlus e => nul e
    | EAndCode PInitParser => true
    | EAndCode _ => false                (* pushError and fatalError never succeed *)
    | EStateCode _ | ENot _ | EStar _ | EOpt _ => true
    | EAny | EClass _ _ _ _ => false
    | ELit _ rs => match rs with [] => true | _ => false end
    | EChoice l => existsb nul l
    | ESeq l => forallb nul l
    | ERef n => nt n
    end.
End Nullable.

Section Progress.
  Variable o : settings.
  Variable g : grammar.
  Variable data : bytes.
  Variable nt : string -> bool.
  Hypothesis Hg : grammar_lits_ok g = true.
  Hypothesis Hnt : forall n e, find_rule n g = Some e -> nt n = false -> nul nt e = false.
  Notation off s := (p_off (pt_pos (s_pt s))).

  Definition progress (e : bool) (s : st) (r : out) : Prop :=
    match r with OOk _ _ s' => e = false -> off s < off s' | _ => True end.

  Lemma lit_progress rule want p rs en : forall s v en' s',
    forallb (fun r => negb (r =? RuneError)%N) rs = true ->
    lit_loop o rule want p rs en s = OOk v en' s' ->
    Steps (s_pt s) (s_pt s') /\ (rs <> [] -> off s < off s').
  Proof.
    induction rs as [|r rs IH]; intros s v en' s' Hr H; cbn [lit_loop] in H.
    - injection H as _ _ <-. rewrite fail_at_pt. split; [constructor|congruence].
    - cbn in Hr. apply andb_true_iff in Hr as [Hr1 Hr2].
      destruct (N.eqb_spec (fst (decode_rune (pt_rest (s_pt s)))) r) as [E|E]; [|discriminate].
      assert (Hn : pt_rest (s_pt s) <> []).
      { apply decode_nonempty. rewrite E. now apply negb_true_iff, N.eqb_neq in Hr1. }
      destruct (IH _ _ _ _ Hr2 H) as [K _]. rewrite read_pt in K. split.
      + eapply steps_trans; [apply steps_one; exact Hn|exact K].
      + intros _. pose proof (advance_gt _ Hn). apply steps_off in K. lia.
  Qed.

  Lemma progress_prim rule e en s r : lits_ok e = true ->
    prim_out o g rule e en s = Some r -> progress (nul nt e) s r.
  Proof.
    intros He. destruct e; cbn [prim_out]; try discriminate; intros H; try (injection H as <-).
    - destruct p; cbn; try discriminate; auto.
    - cbn. discriminate.
    - destruct (at_eof s) eqn:E; cbn; auto. intros _. rewrite fail_at_pt, read_pt. apply advance_gt.
      rewrite <- at_eof_spec. congruence.
    - destruct (at_eof s) eqn:E; cbn; auto. destruct (class_match _ _ _ _); cbn; auto.
      intros _. rewrite fail_at_pt, read_pt. apply advance_gt. rewrite <- at_eof_spec. congruence.
    - destruct (lit_loop _ _ _ _ _ _ _) as [v en' s'| | |] eqn:E; cbn; auto.
      apply lit_progress in E as [_ E]; [|exact He]. destruct runes; [discriminate|]. intros _. apply E. discriminate.
    - destruct (find_rule name g); [discriminate|]. injection H as <-. cbn. auto.
  Qed.

  Lemma progress_all :
    (forall rule e en s r, ev o g rule e en s r -> lits_ok e = true -> Reach data (s_pt s) ->
       progress (nul nt e) s r) /\
    (forall rule pt w es acc en s r, evs o g rule pt w es acc en s r -> forallb lits_ok es = true ->
       Reach data (s_pt s) ->
       match r with OOk _ _ s' => Steps (s_pt s) (s_pt s') | _ => True end /\ progress (forallb (nul nt) es) s r) /\
    (forall rule es en s r, evc o g rule es en s r -> forallb lits_ok es = true -> Reach data (s_pt s) ->
       progress (existsb (nul nt) es) s r) /\
    (forall rule e acc en s r, evt o g rule e acc en s r -> lits_ok e = true -> Reach data (s_pt s) ->
       match r with OOk v _ s' => Steps (s_pt s) (s_pt s') /\
         (v <> VList (rev acc) -> nul nt e = false -> off s < off s') | _ => True end).
  Proof.
    apply ev_mutind.
    - intros. exact I.
    - intros rule e en s r _ H He Hs. exact (progress_prim rule e en (tick s) r He H).
    - intros rule a e en s r _ _ IH He Hs. specialize (IH He Hs).
      destruct r as [v en' s'|en' s'|m x s'|]; cbn in *; auto. destruct (run_action _ _ _ _ _ _); cbn; auto.
    - intros rule l e en s r _ _ IH He Hs. specialize (IH He Hs). destruct r; cbn in *; auto.
    - intros rule e en s r _ _ IH He Hs. destruct r; cbn in *; auto. discriminate.
    - intros rule e en s r _ _ IH He Hs. destruct r; cbn in *; auto; discriminate.
    - intros rule name e en s r _ F _ IH _ Hs.
      assert (He : lits_ok e = true).
      { apply find_rule_in in F. unfold grammar_lits_ok in Hg. rewrite forallb_forall in Hg. exact (Hg _ F). }
      specialize (IH He Hs). destruct r; cbn in *; auto. intros K. apply IH. eapply Hnt; eauto.
    - intros rule es en s r _ _ IH He Hs. exact (proj2 (IH He Hs)).
    - intros rule es en s r _ _ IH He Hs. exact (IH He Hs).
    - intros rule e en s r _ _ IH He Hs. destruct r; cbn; auto. discriminate.
    - intros rule e en s r _ _ IH He Hs. specialize (IH He Hs). destruct r as [v en' s'|en' s'|m x s'|]; cbn in *; auto.
      destruct IH as [_ IH]. destruct v; cbn; try (apply IH; discriminate). destruct l; [exact I|].
      cbn. apply IH. discriminate.
    - intros. split; [constructor|discriminate].
    - intros rule pt w e es acc en s v en' s' r H1 IH1 _ IH2 He Hs. cbn in He.
      apply andb_true_iff in He as [He1 He2].
      pose proof (ev_track o g data Hg _ _ _ _ _ H1 He1 Hs) as T. cbn in T.
      assert (Hr : Reach data (s_pt s')) by (eapply steps_reach; eauto).
      destruct (IH2 He2 Hr) as [K1 K2]. specialize (IH1 He1 Hs). cbn in IH1.
      destruct r as [v2 en2 s2|en2 s2|m2 x2 s2|]; cbn in *; auto. split; [eapply steps_trans; eauto|].
      intros E. apply andb_false_iff in E as [E|E].
      + specialize (IH1 E). apply steps_off in K1. lia.
      + specialize (K2 E). apply steps_off in T. lia.
    - intros. cbn. auto.
    - intros. cbn. auto.
    - intros. cbn. auto.
    - intros rule e es en s v en' s' _ IH He Hs. cbn in He. apply andb_true_iff in He as [He1 He2].
      specialize (IH He1 Hs). cbn in *. intros E. apply orb_false_iff in E as [E _]. auto.
    - intros rule e es en s en' s' r H1 IH1 _ IH2 He Hs. cbn in He. apply andb_true_iff in He as [He1 He2].
      destruct (ev_track o g data Hg _ _ _ _ _ H1 He1 Hs) as [T _]. cbn in IH2. rewrite T in IH2.
      specialize (IH2 He2 Hs). destruct r; cbn in *; auto. rewrite T in IH2. intros E.
      apply orb_false_iff in E as [_ E]. auto.
    - intros. cbn. auto.
    - intros rule e acc en s en' s' H1 IH He Hs.
      destruct (ev_track o g data Hg _ _ _ _ _ H1 He Hs) as [T _]. rewrite T. split; [constructor|congruence].
    - intros rule e acc en s v en' s' r H1 IH1 _ IH2 He Hs.
      pose proof (ev_track o g data Hg _ _ _ _ _ H1 He Hs) as T. cbn in T.
      assert (Hr : Reach data (s_pt s')) by (eapply steps_reach; eauto).
      specialize (IH2 He Hr). specialize (IH1 He Hs). cbn in IH1.
      destruct r as [v2 en2 s2|en2 s2|m2 x2 s2|]; cbn in *; auto. destruct IH2 as [K1 K2].
      split; [eapply steps_trans; eauto|]. intros _ E. specialize (IH1 E). apply steps_off in K1. lia.
    - intros. cbn. auto.
  Qed.

  Lemma ev_progress rule e en s v en' s' :
    ev o g rule e en s (OOk v en' s') -> lits_ok e = true -> Reach data (s_pt s) ->
    nul nt e = false -> off s < off s'.
  Proof. intros H He Hs. exact (proj1 progress_all _ _ _ _ _ H He Hs). Qed.
End Progress.

(** ** Fuel *)
Section Fuel.
  Variable o : settings.
  Variable g : grammar.
  Variable data : bytes.
  Variable nt : string -> bool.
  Variable rk : string -> nat.
  Variable K : nat.

  (** Depth of nested calls before input is consumed *)
  Fixpoint ld (e : expr) : nat :=
    match e with
    | EAct _ e | ELab _ e | ENot e | EPlus e | EStar e | EOpt e => S (ld e)
    | EChoice l => S (fold_right (fun x n => Nat.max (ld x) n) 0 l)
    | ESeq l => S ((fix lds (l : list expr) : nat :=
                      match l with [] => 0 | x :: l' => Nat.max (ld x) (if nul nt x then lds l' else 0) end) l)
    | ERef n => S (rk n)
    | _ => 1
    end.
  Fixpoint lds (l : list expr) : nat :=
    match l with [] => 0 | x :: l' => Nat.max (ld x) (if nul nt x then lds l' else 0) end.

  (** Bodies of repetitions consume; elements of sequences fit into [K]. *)
  Fixpoint wf (e : expr) : bool :=
    match e with
    | EAct _ e | ELab _ e | ENot e | EOpt e => wf e
    | EPlus e | EStar e => negb (nul nt e) && wf e
    | EChoice l => forallb wf l
    | ESeq l => forallb (fun x => (ld x <=? K) && wf x) l
    | _ => true
    end.

  Hypothesis Hg : grammar_lits_ok g = true.
  Hypothesis Hnt : forall n e, find_rule n g = Some e -> nt n = false -> nul nt e = false.
  Hypothesis Hrk : forall n e, find_rule n g = Some e -> ld e <= rk n /\ wf e = true.
  Hypothesis HK : 1 <= K.

  Notation len s := (List.length (pt_rest (s_pt s))).

  Lemma ld_pos e : 1 <= ld e.
  Proof. destruct e; cbn; lia. Qed.
  Lemma ld_seq l : ld (ESeq l) = S (lds l).
  Proof. cbn [ld]. reflexivity. Qed.
  Lemma len_off s s' : Reach data (s_pt s) -> Reach data (s_pt s') ->
    p_off (pt_pos (s_pt s)) + len s = p_off (pt_pos (s_pt s')) + len s'.
  Proof. intros H1 H2. now rewrite (reach_len _ _ H1), (reach_len _ _ H2). Qed.

  (** Effect of one evaluation on the remaining length *)
  Lemma eval_after n rule e en s v en' s' :
    lits_ok e = true -> Reach data (s_pt s) -> eval o g n rule e en s = OOk v en' s' ->
    Reach data (s_pt s') /\ len s' <= len s /\ (nul nt e = false -> len s' < len s).
  Proof.
    intros He Hs E. assert (H : ev o g rule e en s (OOk v en' s')).
    { rewrite <- E. apply eval_ev. congruence. }
    pose proof (ev_track o g data Hg _ _ _ _ _ H He Hs) as T. cbn in T.
    assert (Hr : Reach data (s_pt s')) by (eapply steps_reach; eauto).
    pose proof (len_off _ _ Hs Hr). pose proof (steps_off _ _ T).
    split; [exact Hr|]. split; [lia|]. intros En.
    pose proof (ev_progress o g data nt Hg Hnt _ _ _ _ _ _ _ H He Hs En). lia.
  Qed.
  Lemma eval_after_fail n rule e en s en' s' :
    lits_ok e = true -> Reach data (s_pt s) -> eval o g n rule e en s = OFail en' s' -> s_pt s' = s_pt s.
  Proof.
    intros He Hs E. assert (H : ev o g rule e en s (OFail en' s')).
    { rewrite <- E. apply eval_ev. congruence. }
    exact (proj1 (ev_track o g data Hg _ _ _ _ _ H He Hs)).
  Qed.

  Definition enough (n : nat) : Prop :=
    forall rule e en s, lits_ok e = true -> wf e = true -> Reach data (s_pt s) ->
      len s * K + ld e <= n -> eval o g n rule e en s <> OFuel.

  Lemma seq_enough n rule pt w es : enough n -> forall acc en s,
    forallb lits_ok es = true -> forallb (fun x => (ld x <=? K) && wf x) es = true -> Reach data (s_pt s) ->
    (len s * K + lds es <= n \/ S (len s) * K <= n) ->
    seq_loop (eval o g n rule) pt w es acc en s <> OFuel.
  Proof.
    intros Hn. induction es as [|e es IH]; intros acc en s Hl Hw Hs Hlen; [discriminate|].
    cbn [seq_loop]. cbn [forallb] in Hl, Hw. apply andb_true_iff in Hl as [Hl1 Hl2].
    apply andb_true_iff in Hw as [Hw1 Hw2]. apply andb_true_iff in Hw1 as [Hk Hw1]. apply Nat.leb_le in Hk.
    assert (F : eval o g n rule e en s <> OFuel).
    { apply Hn; auto. destruct Hlen as [H|H]; [cbn [lds] in H; lia|cbn in H; lia]. }
    destruct (eval o g n rule e en s) as [v en' s'|en' s'|m x s'|] eqn:E; try congruence.
    destruct (eval_after _ _ _ _ _ _ _ _ Hl1 Hs E) as (R1 & R2 & R3).
    apply IH; auto. destruct Hlen as [H|H].
    - destruct (Nat.eq_dec (len s') (len s)) as [Eq|Ne].
      + left. cbn [lds] in H. destruct (nul nt e); [rewrite Eq; lia|]. specialize (R3 eq_refl). lia.
      + right. cbn. nia.
    - right. nia.
  Qed.
  Lemma choice_enough n rule es : enough n -> forall en s,
    forallb lits_ok es = true -> forallb wf es = true -> Reach data (s_pt s) ->
    len s * K + fold_right (fun x n => Nat.max (ld x) n) 0 es <= n ->
    choice_loop (eval o g n rule) es en s <> OFuel.
  Proof.
    intros Hn. induction es as [|e es IH]; intros en s Hl Hw Hs Hlen; [discriminate|].
    cbn [choice_loop]. cbn [forallb fold_right] in *. apply andb_true_iff in Hl as [Hl1 Hl2].
    apply andb_true_iff in Hw as [Hw1 Hw2].
    assert (F : eval o g n rule e [] s <> OFuel) by (apply Hn; auto; lia).
    destruct (eval o g n rule e [] s) as [v en' s'|en' s'|m x s'|] eqn:E; try congruence.
    pose proof (eval_after_fail _ _ _ _ _ _ _ Hl1 Hs E) as T. apply IH; cbn; rewrite ?T; auto; lia.
  Qed.
  Lemma star_enough n rule e : enough n -> lits_ok e = true -> wf e = true -> nul nt e = false ->
    forall k acc en s, Reach data (s_pt s) -> len s < k -> len s * K + ld e <= n ->
    star_loop (eval o g n rule e []) k acc en s <> OFuel.
  Proof.
    intros Hn Hl Hw He. induction k as [|k IH]; intros acc en s Hs Hk Hlen; [lia|].
    cbn [star_loop]. assert (F : eval o g n rule e [] s <> OFuel) by (apply Hn; auto).
    destruct (eval o g n rule e [] s) as [v en' s'|en' s'|m x s'|] eqn:E; try congruence.
    destruct (eval_after _ _ _ _ _ _ _ _ Hl Hs E) as (R1 & R2 & R3). specialize (R3 He).
    apply IH; auto; [lia|nia].
  Qed.

  Theorem fuel_enough n : enough n.
  Proof.
    induction n as [|n IH]; intros rule e en s Hl Hw Hs Hlen.
    { pose proof (ld_pos e). lia. }
    cbn [eval]. destruct (over_limit o (tick s)) eqn:L.
    { unfold step. rewrite L. discriminate. }
    destruct (prim_out o g rule e en (tick s)) as [r|] eqn:P.
    { rewrite (step_prim o g _ _ _ _ _ _ _ L P). now apply (prim_not_fuel o g rule e en (tick s)). }
    destruct e; try discriminate P; cbn [lits_ok wf] in Hl, Hw; rewrite ?ld_seq in Hlen; cbn [ld] in Hlen.
    - rewrite step_act by exact L.
      assert (F : eval o g n rule e en (tick s) <> OFuel) by (apply IH; auto; cbn; lia).
      destruct (eval o g n rule e en (tick s)); cbn; try congruence.
      destruct (run_action _ _ _ _ _ _); discriminate.
    - unfold step. rewrite L. apply choice_enough; auto. cbn. lia.
    - unfold step. rewrite L. apply seq_enough; auto. left. cbn. lia.
    - rewrite step_lab by exact L.
      assert (F : eval o g n rule e [] (tick s) <> OFuel) by (apply IH; auto; cbn; lia).
      destruct (eval o g n rule e [] (tick s)); cbn; congruence.
    - rewrite step_not by exact L.
      assert (F : eval o g n rule e [] (set_mfinv (negb (s_mfinv (tick s))) (tick s)) <> OFuel) by (apply IH; auto; cbn; lia).
      destruct (eval o g n rule e [] _); cbn; congruence.
    - rewrite step_plus by exact L. apply andb_true_iff in Hw as [Hw1 Hw2]. apply negb_true_iff in Hw1.
      assert (F : star_loop (eval o g n rule e []) n [] en (tick s) <> OFuel).
      { pose proof (ld_pos e). apply star_enough; auto; cbn; [nia|lia]. }
      destruct (star_loop _ _ _ _ _) as [v en' s'|en' s'|m x s'|]; cbn; try congruence.
      destruct v; try discriminate. destruct l; discriminate.
    - unfold step. rewrite L. apply andb_true_iff in Hw as [Hw1 Hw2]. apply negb_true_iff in Hw1.
      pose proof (ld_pos e). apply star_enough; auto; cbn; [nia|lia].
    - rewrite step_opt by exact L.
      assert (F : eval o g n rule e [] (tick s) <> OFuel) by (apply IH; auto; cbn; lia).
      destruct (eval o g n rule e [] (tick s)); cbn; congruence.
    - cbn [prim_out] in P. destruct (find_rule name g) as [e|] eqn:Fd; [|discriminate].
      rewrite (step_ref o g _ _ _ _ e) by assumption.
      destruct (Hrk _ _ Fd) as [R1 R2].
      assert (He : lits_ok e = true).
      { apply find_rule_in in Fd. unfold grammar_lits_ok in Hg. rewrite forallb_forall in Hg. exact (Hg _ Fd). }
      assert (F : eval o g n name e [] (tick s) <> OFuel) by (apply IH; auto; cbn; lia).
      destruct (eval o g n name e [] (tick s)); cbn; congruence.
  Qed.
End Fuel.

(** ** The tables for the grammar of the package *)

Fixpoint tlookup {A} (d : A) (n : string) (l : list (string * A)) : A :=
  match l with [] => d | (k, v) :: l' => if String.eqb k n then v else tlookup d n l' end.
Definition nul_step (g : grammar) (t : list (string * bool)) : list (string * bool) :=
  map (fun x => (fst x, nul (fun n => tlookup false n t) (snd x))) g.
Definition rk_step (nt : string -> bool) (g : grammar) (t : list (string * nat)) : list (string * nat) :=
  map (fun x => (fst x, ld nt (fun n => tlookup 0 n t) (snd x))) g.
Fixpoint iter {A} (n : nat) (f : A -> A) (x : A) : A := match n with 0 => x | S n' => iter n' f (f x) end.

Definition gen_nul_table := Eval vm_compute in iter 10 (nul_step gen_grammar) [].
Definition gen_nul (n : string) : bool := tlookup false n gen_nul_table.
Definition gen_rk_table := Eval vm_compute in iter 40 (rk_step gen_nul gen_grammar) [].
Definition gen_rk (n : string) : nat := tlookup 0 n gen_rk_table.

Definition table_check (g : grammar) (nt : string -> bool) (rk : string -> nat) (K : nat) : bool :=
  grammar_lits_ok g
  && forallb (fun x => implb (negb (nt (fst x))) (negb (nul nt (snd x)))) g
  && forallb (fun x => (ld nt rk (snd x) <=? rk (fst x)) && wf nt rk K (snd x) && (rk (fst x) <? K)) g.

Lemma gen_table_check : table_check gen_grammar gen_nul gen_rk fuel_factor = true.
Proof. vm_compute. reflexivity. Qed.

Lemma forallb_rule {g : grammar} {P : string * expr -> bool} n e :
  forallb P g = true -> find_rule n g = Some e -> P (n, e) = true.
Proof. intros H F. apply find_rule_in in F. rewrite forallb_forall in H. exact (H _ F). Qed.

Lemma gen_lits_ok : grammar_lits_ok gen_grammar = true.
Proof. vm_compute. reflexivity. Qed.
Lemma gen_nul_ok n e : find_rule n gen_grammar = Some e -> gen_nul n = false -> nul gen_nul e = false.
Proof.
  pose proof gen_table_check as H. unfold table_check in H.
  apply andb_true_iff in H as [H _]. apply andb_true_iff in H as [_ H].
  intros F E. pose proof (forallb_rule n e H F) as K. cbn [fst snd] in K. rewrite E in K. cbn in K.
  now apply negb_true_iff in K.
Qed.
Lemma gen_rk_ok n e : find_rule n gen_grammar = Some e ->
  ld gen_nul gen_rk e <= gen_rk n /\ wf gen_nul gen_rk fuel_factor e = true /\ gen_rk n < fuel_factor.
Proof.
  pose proof gen_table_check as H. unfold table_check in H. apply andb_true_iff in H as [_ H].
  intros F. pose proof (forallb_rule n e H F) as K. cbn [fst snd] in K.
  apply andb_true_iff in K as [K K3]. apply andb_true_iff in K as [K1 K2].
  apply Nat.leb_le in K1. apply Nat.ltb_lt in K3. auto.
Qed.

Lemma check_rune_pt o rule s : s_pt (check_rune o rule s) = s_pt s.
Proof. unfold check_rune. now destruct (_ && _). Qed.
Lemma init_st_pt o ff data : s_pt (init_st o ff data) = start_pt data.
Proof. unfold init_st. now rewrite check_rune_pt. Qed.

(** Running a rule of the grammar from any reachable point *)
Lemma gen_rule_fuel o data n rule e en s :
  find_rule rule gen_grammar = Some e -> Reach data (s_pt s) ->
  S (List.length (pt_rest (s_pt s))) * fuel_factor <= n ->
  eval o gen_grammar n rule e en s <> OFuel.
Proof.
  intros F Hs Hn. destruct (gen_rk_ok _ _ F) as (R1 & R2 & R3).
  apply (fuel_enough o gen_grammar data gen_nul gen_rk fuel_factor gen_lits_ok gen_nul_ok).
  - intros n' e' F'. destruct (gen_rk_ok _ _ F') as (A & B & _). auto.
  - unfold fuel_factor. lia.
  - exact (forallb_rule rule e gen_lits_ok F).
  - exact R2.
  - exact Hs.
  - rewrite Nat.mul_succ_l in Hn. lia.
Qed.
Lemma gen_rule_ev o data rule e en s :
  find_rule rule gen_grammar = Some e -> Reach data (s_pt s) ->
  exists r, ev o gen_grammar rule e en s r.
Proof.
  intros F Hs. eexists. apply eval_ev. eapply gen_rule_fuel; eauto.
Qed.

(** ** What parse returns, in terms of the run *)

(** logstash_config.go:12587-12651, from the outcome of the run *)
Definition finish (k : pcfg) (r : out) (ff : list failure) : result * list failure :=
  match r with
  | OOk v _ s => (Returned v (s_errs s), s_ff s)
  | OFail _ s =>
      (Returned VNil
         (match s_errs s with
          | [] => [PError (s_mfpos s) None (MText (no_match_msg (s_mfexp s)))]
          | l => l
          end), s_ff s)
  | OPanic m rule s =>
      (if k_recover k
       then Returned VNil (s_errs s ++ [PError (pt_pos (s_pt s)) (Some rule) m])
       else Panicked m, s_ff s)
  | OFuel => (Diverged, ff)
  end.

Lemma parse_with_run n k ff data :
  parse_fuel (List.length data) <= n ->
  match find_rule (k_entry k) gen_grammar with
  | None => parse_with n gen_grammar k ff data
            = (Returned VNil [PError (Pos 1 0 0) None (MText (b "invalid entrypoint"))], ff)
  | Some e => exists r, ev (settings_of k) gen_grammar (k_entry k) e [] (init_st (settings_of k) ff data) r /\
                        parse_with n gen_grammar k ff data = finish k r ff
  end.
Proof.
  intros Hn. unfold parse_with. destruct (find_rule (k_entry k) gen_grammar) as [e|] eqn:F; [|reflexivity].
  set (s := init_st (settings_of k) ff data).
  assert (Hs : Reach data (s_pt s)) by (subst s; rewrite init_st_pt; constructor).
  assert (H : eval (settings_of k) gen_grammar n (k_entry k) e [] s <> OFuel).
  { apply (gen_rule_fuel _ data); auto. subst s. rewrite init_st_pt, start_rest. exact Hn. }
  exists (eval (settings_of k) gen_grammar n (k_entry k) e [] s). split; [now apply eval_ev|].
  destruct (eval _ _ _ _ _ _ _); reflexivity.
Qed.

Lemma parse_run opts ff data :
  match find_rule (k_entry (config_of opts)) gen_grammar with
  | None => parse opts ff data
            = (Returned VNil [PError (Pos 1 0 0) None (MText (b "invalid entrypoint"))], ff)
  | Some e => exists r, ev (settings_of (config_of opts)) gen_grammar (k_entry (config_of opts)) e []
                          (init_st (settings_of (config_of opts)) ff data) r /\
                        parse opts ff data = finish (config_of opts) r ff
  end.
Proof. apply parse_with_run. reflexivity. Qed.

Lemma parse_terminates opts ff data : fst (parse opts ff data) <> Diverged.
Proof.
  pose proof (parse_run opts ff data) as H. destruct (find_rule _ _) as [e|]; [|rewrite H; discriminate].
  destruct H as (r & H & ->). destruct r; cbn; try discriminate.
  - destruct (k_recover _); discriminate.
  - now apply (proj1 (ev_not_fuel _ _)) in H.
Qed.

Lemma parse_fuel_irrelevant n opts ff data :
  parse_fuel (List.length data) <= n -> parse_with n gen_grammar (config_of opts) ff data = parse opts ff data.
Proof.
  intros Hn. pose proof (parse_run opts ff data) as H. pose proof (parse_with_run n (config_of opts) ff data Hn) as H'.
  destruct (find_rule _ _) as [e|]; [|congruence].
  destruct H as (r & H & ->), H' as (r' & H' & ->). now rewrite (ev_fun _ _ _ _ _ _ _ _ H H').
Qed.
