(** What follows an error does not matter (for PropsLocal.v).

    Two texts begin with the same [K] bytes.  A run of the parser on the first that fails,
    and whose farthest failure is at least [ahead] bytes before the end of the common part,
    is a run on the second as well, step by step: the parser has looked at nothing else.
    The states differ in the unread input only ([trs]). *)
From Coq Require Import List NArith ZArith Bool String Arith Lia.
From Verif Require Import Bytes Utf8 F64 Ast Peg Actions Engine Parser GrammarGen QuoteFacts PosFacts Run EngineFacts
  Termination RunInv HistFacts ErrFacts.
Import ListNotations.

(** ** Expressions *)
Definition prim_op (e : expr) : bool := match e with EAny | ELit _ _ => true | _ => false end.
(** a failure is recorded at or after the place where the expression began *)
Fixpoint rec (e : expr) : bool :=
  match e with
  | EAct _ e | ELab _ e | EPlus e => rec e
  | EAndCode (PPushError _) => false
  | EChoice es => existsb rec es
  | ESeq es => forallb rec es
  | ENot e => prim_op e
  | _ => true
  end.
(** literals are short, negations look at one literal or rune, the parts of a sequence record *)
Fixpoint local (g : grammar) (e : expr) : bool :=
  match e with
  | EAct _ e | ELab _ e | EStar e | EOpt e => local g e
  | EPlus e => local g e && rec e
  | EChoice es => forallb (local g) es
  | ESeq es => forallb (local g) es && match es with [] => true | _ :: l => forallb rec l end
  | ENot e => prim_op e && local g e
  | ELit _ rs => List.length rs <=? 6
  | ERef n => match find_rule n g with Some _ => true | None => false end
  | _ => true
  end.
Definition grammar_local (g : grammar) : bool := forallb (fun r => rec (snd r) && local g (snd r)) g.
Definition ahead : nat := 32.

Lemma decode_le4 s : snd (decode_rune s) <= 4.
Proof.
  unfold decode_rune. destruct s as [|c0 s]; [cbn; lia|].
  repeat match goal with |- context [if ?x then _ else _] => destruct x | |- context [match ?l with [] => _ | _ :: _ => _ end] => destruct l end; cbn; lia.
Qed.
Lemma decode_first s t : firstn 4 s = firstn 4 t -> decode_rune s = decode_rune t.
Proof.
  intros E. destruct s as [|c0 [|c1 [|c2 [|c3 s]]]], t as [|d0 [|d1 [|d2 [|d3 t]]]]; cbn [firstn] in E; try discriminate E; try (injection E; intros; subst); reflexivity.
Qed.
Lemma firstn_skipn_same {A} n k m (s t : list A) : firstn k s = firstn k t -> n + m <= k -> firstn m (skipn n s) = firstn m (skipn n t).
Proof.
  intros E H. rewrite !firstn_skipn_comm. f_equal. replace (n + m) with (Nat.min (n + m) k) by lia. now rewrite <- !firstn_firstn, E.
Qed.

Notation off s := (p_off (pt_pos (s_pt s))).
Notation mf s := (p_off (s_mfpos s)).
Lemma fail_at_grows x p w s : mf s <= mf (fail_at x p w s).
Proof.
  unfold fail_at. destruct (Bool.eqb _ _); [|lia]. destruct (_ <? _) eqn:A; [lia|]. apply Nat.ltb_ge in A. destruct (_ <? _) eqn:B; cbn; lia.
Qed.
Lemma fail_at_hits x p w s : x = s_mfinv s -> p_off p <= mf (fail_at x p w s).
Proof.
  intros ->. unfold fail_at. rewrite Bool.eqb_reflx. destruct (_ <? _) eqn:A; [apply Nat.ltb_lt in A; lia|]. apply Nat.ltb_ge in A. destruct (_ <? _) eqn:B; cbn; [lia|apply Nat.ltb_ge in B; lia].
Qed.
Lemma read_mfpos o rule s : s_mfpos (read o rule s) = s_mfpos s.
Proof. apply read_cases; reflexivity. Qed.
Lemma push_mfpos m s : s_mfpos (push_error m s) = s_mfpos s.
Proof. unfold push_error. destruct (s_ff s); [reflexivity|]. destruct (_ <? _); [reflexivity|]. destruct (_ =? _); [|reflexivity]. now destruct (existsb _ _). Qed.

(** ** The farthest failure grows and is hit *)
Section Grow.
  Variable o : settings.
  Variable g : grammar.
  Variable data : bytes.
  Hypothesis Hg : grammar_lits_ok g = true.
  Hypothesis Hl : grammar_local g = true.
  Definition grows (s : st) (r : out) : Prop :=
    match r with OOk _ _ s' | OFail _ s' => mf s <= mf s' | _ => True end.
  Definition hits (s : st) (r : out) : Prop :=
    match r with OFail _ s' => s_mfinv s = false -> off s <= mf s' | _ => True end.
  Lemma rule_local n e : find_rule n g = Some e -> rec e = true /\ local g e = true.
  Proof. intros F. apply andb_true_iff. exact (forallb_rule _ _ Hl F). Qed.
  Lemma lit_grows rule want p rs en : forall s, grows s (lit_loop o rule want p rs en s) /\
    match lit_loop o rule want p rs en s with OFail _ s' => s_mfinv s = false -> p_off (pt_pos p) <= mf s' | OOk _ _ s' => s_mfinv s = true -> p_off (pt_pos p) <= mf s' | _ => True end.
  Proof.
    induction rs as [|r rs IH]; intros s; cbn [lit_loop].
    - cbn. split; [apply fail_at_grows|]. intros E. now apply fail_at_hits.
    - destruct (_ =? r)%N.
      + specialize (IH (read o (Some rule) s)). destruct (lit_loop _ _ _ _ _ _ _); cbn in *; auto; rewrite read_mfpos, read_mfinv in IH; exact IH.
      + cbn. rewrite restore_mfpos. split; [apply fail_at_grows|]. intros E. now apply fail_at_hits.
  Qed.
  Lemma prim_grows rule e en s r : local g e = true -> prim_out o g rule e en s = Some r -> grows s r /\ (rec e = true -> hits s r).
  Proof.
    intros L H. destruct e; cbn [prim_out] in H; try discriminate H; try (injection H as <-).
    - destruct p; cbn; auto. rewrite push_mfpos. split; [lia|discriminate].
    - destruct c; cbn; [destruct (s_warns s)|destruct (_ && _)]; cbn; split; auto.
    - destruct (at_eof s); cbn; (split; [|auto]).
      + apply fail_at_grows.
      + intros _ E. now apply fail_at_hits.
      + etransitivity; [|apply fail_at_grows]. now rewrite read_mfpos.
    - destruct (_ && _); cbn; (split; [|auto]).
      + etransitivity; [|apply fail_at_grows]. now rewrite read_mfpos.
      + apply fail_at_grows.
      + intros _ E. now apply fail_at_hits.
    - pose proof (lit_grows rule want (s_pt s) runes en s) as [A B]. split; [exact A|]. intros _. unfold hits. destruct (lit_loop _ _ _ _ _ _ _); auto.
    - cbn [local] in L. destruct (find_rule name g) eqn:F; discriminate.
  Qed.
  (** the operand of a negation matches: this is a failure of the negation *)
  Lemma op_hits rule e en s v en' s' : prim_op e = true -> ev o g rule e en s (OOk v en' s') -> s_mfinv s = true -> off s <= mf s'.
  Proof.
    intros P H E. inversion H; subst; try discriminate P.
    match goal with X : prim_out _ _ _ _ _ _ = Some _ |- _ => rename X into K end. change (off s) with (off (tick s)). change (s_mfinv s) with (s_mfinv (tick s)) in E. revert K E. generalize (tick s). intros t K E.
    destruct e; try discriminate P; cbn [prim_out] in K.
    - destruct (at_eof t); [discriminate K|]. injection K as _ _ <-. apply fail_at_hits. now rewrite read_mfinv.
    - pose proof (lit_grows rule want (s_pt t) runes en t) as [_ B]. assert (K2 : lit_loop o rule want (s_pt t) runes en t = OOk v en' s') by congruence. rewrite K2 in B. exact (B E).
  Qed.
  Lemma prim_op_lits e : prim_op e = true -> local g e = true -> rec e = true.
  Proof. destruct e; cbn; auto; discriminate. Qed.
  Lemma grow_all :
    (forall rule e en s r, ev o g rule e en s r -> lits_ok e = true -> local g e = true -> Reach data (s_pt s) -> grows s r /\ (rec e = true -> hits s r)) /\
    (forall rule pt w es acc en s r, evs o g rule pt w es acc en s r -> forallb lits_ok es = true -> forallb (local g) es = true -> Reach data (s_pt s) ->
      grows s r /\ (forallb rec es = true -> hits s r) /\ match r with OOk _ _ s' => off s <= off s' | _ => True end) /\
    (forall rule es en s r, evc o g rule es en s r -> forallb lits_ok es = true -> forallb (local g) es = true -> Reach data (s_pt s) -> grows s r /\ (existsb rec es = true -> hits s r)) /\
    (forall rule e acc en s r, evt o g rule e acc en s r -> lits_ok e = true -> local g e = true -> Reach data (s_pt s) ->
      grows s r /\ match r with OOk _ _ s' => off s <= off s' | OFail _ _ => False | _ => True end /\
      (acc = [] -> rec e = true -> match r with OOk (VList []) _ s' => s_mfinv s = false -> off s <= mf s' | _ => True end)).
  Proof.
    apply ev_mutind.
    - intros rule e en s L _ _ _. split; [exact I|]. intros _. exact I.
    - intros rule e en s r _ P _ L _. exact (prim_grows _ _ _ _ _ L P).
    - intros rule a e en s r _ _ IH He L Hs. destruct (IH He L Hs) as [A B]. cbn [rec]. destruct r; cbn in *; auto. destruct (run_action _ _ _ _ _ _); cbn; auto.
    - intros rule l e en s r _ _ IH He L Hs. destruct (IH He L Hs) as [A B]. cbn [rec]. destruct r; cbn in *; auto.
    - intros rule e en s r _ H IH He L Hs. cbn [lits_ok local rec] in *. apply andb_true_iff in L as [P L]. destruct (IH He L Hs) as [A B]. unfold not_out.
      destruct r; cbn [grows hits not_out] in *; auto; rewrite ?restore_mfpos; cbn in *; rewrite ?restore_mfpos; (split; [exact A|auto]).
      intros _ E. pose proof (op_hits _ _ _ _ _ _ _ P H) as K. cbn in K. apply K. now rewrite E.
    - intros rule e en s r _ _ IH He L Hs. destruct (IH He L Hs) as [A B]. destruct r; cbn in *; auto.
    - intros rule n e en s r _ F _ IH He L Hs. destruct (rule_local _ _ F) as [R L']. destruct (IH (forallb_rule _ _ Hg F) L' Hs) as [A B]. destruct r; cbn in *; auto.
    - intros rule es en s r _ _ IH He L Hs. cbn [lits_ok local rec] in *. apply andb_true_iff in L as [L _]. destruct (IH He L Hs) as (A & B & _). destruct r; cbn in *; auto.
    - intros rule es en s r _ _ IH He L Hs. exact (IH He L Hs).
    - intros rule e en s r _ _ IH He L Hs. destruct (IH He L Hs) as (A & B & _). split; [exact A|]. intros _. destruct r; cbn; auto. destruct B.
    - intros rule e en s r _ _ IH He L Hs. cbn [lits_ok local rec] in *. apply andb_true_iff in L as [L R]. destruct (IH He L Hs) as (A & B & C). specialize (C eq_refl R).
      destruct r as [v en' s'| | |]; cbn [plus_out] in *; auto; [|destruct B]. destruct v; cbn; auto. destruct l; cbn; auto.
    - intros rule pt w acc en s _ _ _. cbn. auto.
    - intros rule pt w e es acc en s v en' s' r H IH1 _ IH2 He L Hs. cbn [forallb] in He, L. apply andb_true_iff in He as [He1 He2], L as [L1 L2].
      pose proof (ev_track o g data Hg _ _ _ _ _ H He1 Hs) as T. cbn in T. pose proof (steps_off _ _ T) as O. pose proof (proj1 (mfinv_all o g) _ _ _ _ _ H) as M. cbn in M.
      destruct (IH1 He1 L1 Hs) as [A1 _]. destruct (IH2 He2 L2 (steps_reach _ _ _ Hs T)) as (A2 & B2 & C2). cbn in A1. split; [destruct r; cbn in *; auto; lia|]. split.
      + intros R. cbn [forallb] in R. apply andb_true_iff in R as [_ R]. specialize (B2 R). destruct r; cbn in *; auto. intros E. specialize (B2 ltac:(congruence)). lia.
      + destruct r; auto. lia.
    - intros rule pt w e es acc en s en' s' _ IH He L Hs. cbn [forallb] in He, L. apply andb_true_iff in He as [He1 He2], L as [L1 L2]. destruct (IH He1 L1 Hs) as [A B]. cbn in *. rewrite restore_mfpos. cbn. split; [exact A|]. split; [|exact I].
      intros R. apply andb_true_iff in R as [R _]. auto.
    - intros rule pt w e es acc en s m x s' _ _ _ _ _. cbn. auto.
    - intros rule en s _ _ _. cbn. split; [lia|discriminate].
    - intros rule e es en s v en' s' _ IH He L Hs. cbn [forallb] in He, L. apply andb_true_iff in He as [He1 He2], L as [L1 L2]. destruct (IH He1 L1 Hs) as [A B]. cbn in *. auto.
    - intros rule e es en s en' s' r H IH1 _ IH2 He L Hs. cbn [forallb] in He, L. apply andb_true_iff in He as [He1 He2], L as [L1 L2].
      pose proof (ev_track o g data Hg _ _ _ _ _ H He1 Hs) as [T _]. pose proof (proj1 (mfinv_all o g) _ _ _ _ _ H) as M. cbn in M.
      destruct (IH1 He1 L1 Hs) as [A1 B1]. assert (Hs' : Reach data (s_pt (set_warns (s_warns s) s'))) by (cbn; now rewrite T). destruct (IH2 He2 L2 Hs') as [A2 B2]. cbn in A1, B1.
      split; [destruct r; cbn in *; auto; lia|]. intros R. cbn [existsb] in R. destruct r; cbn in *; auto. intros E. apply orb_true_iff in R as [R|R]; [specialize (B1 R E); lia|].
      specialize (B2 R ltac:(congruence)). rewrite T in B2. exact B2.
    - intros rule e es en s m x s' _ _ _ _ _. cbn. auto.
    - intros rule e acc en s en' s' H IH He L Hs. destruct (IH He L Hs) as [A B]. pose proof (ev_track o g data Hg _ _ _ _ _ H He Hs) as [T _]. cbn in *. rewrite T. split; [exact A|]. split; [lia|]. intros -> R. cbn. now apply B.
    - intros rule e acc en s v en' s' r H IH1 H2 IH2 He L Hs. pose proof (ev_track o g data Hg _ _ _ _ _ H He Hs) as T. cbn in T. pose proof (steps_off _ _ T) as O.
      destruct (IH1 He L Hs) as [A1 _]. destruct (IH2 He L (steps_reach _ _ _ Hs T)) as (A2 & B2 & _). cbn in A1. split; [destruct r; cbn in *; auto; lia|]. split; [destruct r; auto; lia|].
      intros -> _. apply evt_longer in H2. destruct r as [x| | |]; auto. destruct x; auto. destruct l; auto. cbn in H2. lia.
    - intros rule e acc en s m x s' _ _ _ _ _. cbn. auto.
  Qed.
End Grow.
Lemma gen_local : grammar_local gen_grammar = true.
Proof. vm_compute. reflexivity. Qed.

(** ** The same run on the other text *)
Section Local.
  Variable o : settings.
  Variable g : grammar.
  Variables data data' : bytes.
  Variable K : nat.
  Hypothesis Hg : grammar_lits_ok g = true.
  Hypothesis Hl : grammar_local g = true.
  Hypothesis HK : firstn K data = firstn K data'.
  Definition tr (p : point) : point := Pt (pt_pos p) (skipn (p_off (pt_pos p)) data').
  Definition trs (s : st) : st := set_pt (tr (s_pt s)) s.
  Definition tro (r : out) : out :=
    match r with OOk v en s => OOk v en (trs s) | OFail en s => OFail en (trs s) | OPanic m x s => OPanic m x (trs s) | OFuel => OFuel end.
  (** what is needed of an outcome *)
  Definition bound (r : out) : Prop :=
    match r with OOk _ _ s => mf s + ahead <= K /\ off s + ahead <= K | OFail _ s => mf s + ahead <= K | _ => False end.

  Lemma tr_decode p : Reach data p -> p_off (pt_pos p) + 4 <= K -> decode_rune (pt_rest (tr p)) = decode_rune (pt_rest p).
  Proof. intros R L. cbn [tr pt_rest]. rewrite (reach_rest _ _ R). apply decode_first. symmetry. eapply firstn_skipn_same; [exact HK|exact L]. Qed.
  Lemma tr_advance p : Reach data p -> p_off (pt_pos p) + 8 <= K -> tr (advance_pt p) = advance_pt (tr p).
  Proof.
    intros R L. pose proof (tr_decode p R ltac:(lia)) as D. pose proof (decode_le4 (pt_rest p)) as W.
    assert (E : decode_rune (skipn (snd (decode_rune (pt_rest p))) (pt_rest (tr p))) = decode_rune (skipn (snd (decode_rune (pt_rest p))) (pt_rest p))).
    { cbn [tr pt_rest]. rewrite (reach_rest _ _ R), !skipn_skipn'. rewrite <- (reach_rest _ _ R). apply decode_first. symmetry. eapply firstn_skipn_same; [exact HK|lia]. }
    unfold advance_pt. rewrite D. cbv zeta. rewrite E. cbn [pt_pos tr].
    destruct (fst _ =? NL)%N; unfold tr; cbn [pt_pos pt_rest p_off]; now rewrite skipn_skipn'.
  Qed.
  Lemma trs_restore p s : trs (restore p s) = restore (tr p) (trs s).
  Proof. unfold restore. cbn. destruct (_ =? _); reflexivity. Qed.
  Lemma trs_fail_at x p w s : trs (fail_at x p w s) = fail_at x p w (trs s).
  Proof. unfold fail_at. cbn [trs set_pt s_mfinv s_mfpos s_mfexp]. destruct (Bool.eqb _ _); [|reflexivity]. destruct (_ <? _); [reflexivity|]. destruct (_ <? _); reflexivity. Qed.
  Lemma trs_push m s : trs (push_error m s) = push_error m (trs s).
  Proof.
    unfold push_error, cur_off. cbn [trs set_pt s_ff s_cpos s_ctext]. destruct (s_ff s) as [|f l]; [reflexivity|]. destruct (_ <? _); [reflexivity|]. destruct (_ =? _); [|reflexivity]. destruct (existsb _ _); reflexivity.
  Qed.
  Lemma trs_check rule s : Reach data (s_pt s) -> off s + 4 <= K -> trs (check_rune o rule s) = check_rune o rule (trs s).
  Proof.
    intros R L. unfold check_rune, bad_rune. cbn [trs s_pt set_pt]. rewrite (tr_decode _ R L). destruct (decode_rune _) as [r w]. destruct (_ && negb _); reflexivity.
  Qed.
  Lemma trs_read rule s : Reach data (s_pt s) -> pt_rest (s_pt s) <> [] -> off s + 8 <= K -> trs (read o rule s) = read o rule (trs s).
  Proof.
    intros R N L. unfold read. pose proof (decode_le4 (pt_rest (s_pt s))) as W. rewrite trs_check.
    - f_equal. unfold trs. cbn. now rewrite tr_advance by (auto; lia).
    - cbn. now constructor.
    - cbn. rewrite advance_off. lia.
  Qed.
  Lemma trs_eof s : Reach data (s_pt s) -> off s + 4 <= K -> at_eof (trs s) = at_eof s.
  Proof. intros R L. unfold at_eof. cbn [trs s_pt set_pt]. now rewrite (tr_decode _ R L). Qed.
  Lemma trs_slice p s : Reach data p -> off s <= K -> slice_from (tr p) (trs s) = slice_from p s.
  Proof.
    intros R L. unfold slice_from. cbn. rewrite (reach_rest _ _ R). destruct (Nat.le_gt_cases (p_off (pt_pos p)) (off s)) as [A|A].
    - symmetry. eapply firstn_skipn_same; [exact HK|lia].
    - replace (off s - p_off (pt_pos p)) with 0 by lia. reflexivity.
  Qed.
  Lemma read_off rule s : off (read o rule s) <= off s + 4.
  Proof. rewrite read_pt, advance_off. pose proof (decode_le4 (pt_rest (s_pt s))). lia. Qed.
  Lemma tr_lit rule want p en rs : Reach data p -> (forall r, In r rs -> r <> RuneError) -> forall s, Reach data (s_pt s) -> off s + 4 * List.length rs + 8 <= K ->
    lit_loop o rule want (tr p) rs en (trs s) = tro (lit_loop o rule want p rs en s).
  Proof.
    intros Rp. induction rs as [|r rs IH]; intros Hr s R L; cbn [lit_loop].
    - cbn [tro]. rewrite trs_fail_at. f_equal. f_equal. change (pt_pos (tr p)) with (pt_pos p). rewrite <- trs_fail_at. apply trs_slice; [exact Rp|].
      assert (E : s_pt (fail_at true (pt_pos p) want s) = s_pt s) by (unfold fail_at; destruct (Bool.eqb _ _); [|reflexivity]; destruct (_ <? _); [reflexivity|]; now destruct (_ <? _)). rewrite E. cbn in L. lia.
    - cbn [List.length] in L. change (pt_rest (s_pt (trs s))) with (pt_rest (tr (s_pt s))). rewrite tr_decode by (auto; lia). destruct (_ =? r)%N eqn:E.
      + apply N.eqb_eq in E. assert (N : pt_rest (s_pt s) <> []).
        { intros Z. rewrite Z in E. cbn in E. apply (Hr r); [now left|auto]. }
        rewrite <- trs_read by (auto; lia). apply IH; [intros x I; apply Hr; now right|rewrite read_pt; now constructor|]. pose proof (read_off (Some rule) s). lia.
      + cbn [tro]. rewrite trs_restore, trs_fail_at. reflexivity.
  Qed.
  Definition looks (e : expr) : bool := match e with EAny | EClass _ _ _ _ | ELit _ _ => true | _ => false end.
  Lemma tr_prim rule e en s r : prim_out o g rule e en s = Some r -> lits_ok e = true -> local g e = true -> Reach data (s_pt s) -> (looks e = true -> off s + ahead <= K) ->
    prim_out o g rule e en (trs s) = Some (tro r).
  Proof.
    intros H He L R B. unfold ahead in B. destruct e; cbn [prim_out looks] in *; try discriminate H; try (specialize (B eq_refl)).
    - injection H as <-. destruct p; cbn [run_predicate tro]; [reflexivity|now rewrite trs_push|]. unfold fatal_error, cur_off. reflexivity.
    - injection H as <-. cbn [tro]. do 2 f_equal. destruct c; cbn [run_state]; [cbn; destruct (s_warns s); reflexivity|]. cbn [trs set_pt s_ctext]. destruct (_ && _); reflexivity.
    - rewrite trs_eof by (auto; lia). destruct (at_eof s) eqn:E; injection H as <-; cbn [tro].
      + now rewrite trs_fail_at.
      + assert (N : pt_rest (s_pt s) <> []) by (intros Z; apply at_eof_spec in Z; congruence).
        pose proof (read_off (Some rule) s) as O. rewrite trs_fail_at, trs_read by (auto; lia). do 2 f_equal. change (s_pt (trs s)) with (tr (s_pt s)). rewrite <- trs_read, <- trs_fail_at by (auto; lia).
        f_equal. apply trs_slice; [exact R|].
        match goal with |- off (fail_at ?x ?p ?w ?t) <= K => assert (Q : s_pt (fail_at x p w t) = s_pt t) by (unfold fail_at; destruct (Bool.eqb _ _); [|reflexivity]; destruct (_ <? _); [reflexivity|]; now destruct (_ <? _)) end. rewrite Q. lia.
    - rewrite trs_eof by (auto; lia). change (pt_rest (s_pt (trs s))) with (pt_rest (tr (s_pt s))). rewrite tr_decode by (auto; lia). destruct (negb (at_eof s) && _) eqn:E; injection H as <-; cbn [tro].
      + apply andb_true_iff in E as [E _]. assert (N : pt_rest (s_pt s) <> []) by (intros Z; apply at_eof_spec in Z; rewrite Z in E; discriminate E).
        pose proof (read_off (Some rule) s) as O. rewrite trs_fail_at, trs_read by (auto; lia). do 2 f_equal. change (s_pt (trs s)) with (tr (s_pt s)). rewrite <- trs_read, <- trs_fail_at by (auto; lia).
        f_equal. apply trs_slice; [exact R|].
        match goal with |- off (fail_at ?x ?p ?w ?t) <= K => assert (Q : s_pt (fail_at x p w t) = s_pt t) by (unfold fail_at; destruct (Bool.eqb _ _); [|reflexivity]; destruct (_ <? _); [reflexivity|]; now destruct (_ <? _)) end. rewrite Q. lia.
      + now rewrite trs_fail_at.
    - injection H as <-. f_equal. apply tr_lit; auto.
      + intros x I. cbn [lits_ok] in He. rewrite forallb_forall in He. specialize (He _ I). apply negb_true_iff, N.eqb_neq in He. exact He.
      + cbn [local] in L. apply Nat.leb_le in L. lia.
    - destruct (find_rule name g); [discriminate H|]. injection H as <-. reflexivity.
  Qed.
  Lemma tr_op rule e en s r : prim_op e = true -> ev o g rule e en s r -> lits_ok e = true -> local g e = true -> Reach data (s_pt s) -> off s + ahead <= K ->
    ev o g rule e en (trs s) (tro r).
  Proof.
    intros P H He L R B. inversion H; subst; try discriminate P.
    - apply ev_limit. assumption.
    - apply ev_prim; [assumption|]. change (tick (trs s)) with (trs (tick s)). apply tr_prim; auto.
  Qed.

  Let P_ev rule e en s r := lits_ok e = true -> local g e = true -> s_mfinv s = false -> Reach data (s_pt s) -> bound r -> ev o g rule e en (trs s) (tro r).
  Let P_evs rule pt w es acc en s r := forallb lits_ok es = true -> forallb (local g) es = true -> match es with [] => true | _ :: l => forallb rec l end = true ->
    s_mfinv s = false -> Reach data (s_pt s) -> bound r -> evs o g rule (tr pt) w es acc en (trs s) (tro r).
  Let P_evc rule es en s r := forallb lits_ok es = true -> forallb (local g) es = true -> s_mfinv s = false -> Reach data (s_pt s) -> bound r -> evc o g rule es en (trs s) (tro r).
  Let P_evt rule e acc en s r := lits_ok e = true -> local g e = true -> s_mfinv s = false -> Reach data (s_pt s) -> bound r -> evt o g rule e acc en (trs s) (tro r).
  Theorem local_all :
    (forall rule e en s r, ev o g rule e en s r -> P_ev rule e en s r) /\
    (forall rule pt w es acc en s r, evs o g rule pt w es acc en s r -> P_evs rule pt w es acc en s r) /\
    (forall rule es en s r, evc o g rule es en s r -> P_evc rule es en s r) /\
    (forall rule e acc en s r, evt o g rule e acc en s r -> P_evt rule e acc en s r).
  Proof.
    pose proof (grow_all o g data Hg Hl) as (G_ev & G_evs & G_evc & G_evt).
    pose proof (mfinv_all o g) as (M_ev & M_evs & M_evc & M_evt).
    apply ev_mutind; unfold P_ev, P_evs, P_evc, P_evt.
    - intros rule e en s _ _ _ _ _ [].
    - intros rule e en s r L P He Lo M R B. apply ev_prim; [exact L|]. change (tick (trs s)) with (trs (tick s)). apply tr_prim; auto.
      intros Q. destruct (prim_grows o g rule e en (tick s) r Lo P) as [_ H]. change (off s) with (off (tick s)). destruct r; cbn [bound] in B; try contradiction.
      + pose proof (ev_track o g data Hg rule e en s _ (ev_prim _ _ _ _ _ _ _ L P) He R) as T. cbn in T. apply steps_off in T. change (off (tick s)) with (off s). lia.
      + assert (Rc : rec e = true) by (destruct e; cbn in Q |- *; auto; discriminate Q). specialize (H Rc M). cbn in H. cbn. lia.
    - intros rule a e en s r L H IH He Lo M R B. cbn [lits_ok local] in *.
      assert (Br : bound r). { destruct r as [v en' s'| | |]; cbn in *; auto. destruct (run_action _ _ _ _ _ _); cbn in B; auto; contradiction. }
      assert (E : act_out o rule a (tick (trs s)) (tro r) = tro (act_out o rule a (tick s) r)).
      { destruct r as [v en' s'| | |]; try reflexivity. unfold act_out, tro. cbv zeta. change (s_pt (tick (trs s))) with (tr (s_pt (tick s))). cbn in Br. rewrite trs_slice by (auto; lia).
        cbn [tr pt_pos s_warns set_cur trs set_pt]. destruct (run_action _ _ _ _ _ _); reflexivity. }
      rewrite <- E. apply ev_act; [exact L|]. apply IH; auto.
    - intros rule l e en s r L H IH He Lo M R B. assert (E : lab_out l en (tro r) = tro (lab_out l en r)) by (destruct r; reflexivity). rewrite <- E. apply ev_lab; [exact L|]. apply IH; auto. destruct r; exact B.
    - intros rule e en s r L H IH He Lo M R B. cbn [lits_ok local] in *. apply andb_true_iff in Lo as [P Lo].
      assert (O : off s + ahead <= K).
      { destruct r; cbn in B; try contradiction; rewrite ?restore_mfpos in B; cbn in B.
        - pose proof (op_hits _ _ _ _ _ _ _ _ _ P H) as Z. cbn in Z. specialize (Z ltac:(now rewrite M)). lia.
        - destruct B as [_ B]. unfold restore in B. cbn in B. destruct (ev_track o g data Hg _ _ _ _ _ H He R) as [T _]. cbn in T. rewrite T in B. rewrite Nat.eqb_refl in B. cbn in B. now rewrite T in B. }
      assert (E : not_out en (tick (trs s)) (tro r) = tro (not_out en (tick s) r)).
      { destruct r; try reflexivity; cbn [tro not_out]; rewrite trs_restore; reflexivity. }
      rewrite <- E. apply ev_not; [exact L|]. apply (tr_op rule e [] (set_mfinv (negb (s_mfinv (tick s))) (tick s)) r P H He Lo R O).
    - intros rule e en s r L H IH He Lo M R B. assert (E : opt_out en (tro r) = tro (opt_out en r)) by (destruct r; reflexivity). rewrite <- E. apply ev_opt; [exact L|]. apply IH; auto. destruct r; cbn in *; tauto.
    - intros rule n e en s r L F H IH He Lo M R B. assert (E : ref_out en (tro r) = tro (ref_out en r)) by (destruct r; reflexivity). rewrite <- E. eapply ev_ref; [exact L|exact F|].
      apply IH; auto; [exact (forallb_rule _ _ Hg F)|exact (proj2 (rule_local g Hl _ _ F))|]. destruct r; cbn in *; tauto.
    - intros rule es en s r L H IH He Lo M R B. cbn [lits_ok local] in *. apply andb_true_iff in Lo as [L1 L2]. apply ev_seq; [exact L|]. exact (IH He L1 L2 M R B).
    - intros rule es en s r L H IH He Lo M R B. apply ev_choice; [exact L|]. exact (IH He Lo M R B).
    - intros rule e en s r L H IH He Lo M R B. apply ev_star; [exact L|]. exact (IH He Lo M R B).
    - intros rule e en s r L H IH He Lo M R B. cbn [lits_ok local] in *. apply andb_true_iff in Lo as [Lo Rc].
      assert (E : plus_out en (tro r) = tro (plus_out en r)) by (destruct r as [v| | |]; try reflexivity; destruct v; try reflexivity; destruct l; reflexivity). rewrite <- E. apply ev_plus; [exact L|]. apply IH; auto.
      destruct r as [v en' s'| | |]; cbn [plus_out] in B; auto. destruct v; auto. destruct l; auto. cbn in B.
      inversion H; subst; [|exfalso; match goal with X : evt _ _ _ _ (_ :: _) _ _ _ |- _ => apply evt_longer in X; cbn in X; lia end].
      match goal with X : ev _ _ _ e [] _ (OFail _ _) |- _ => pose proof X as Z; apply (ev_track o g data Hg) in Z; auto end. destruct Z as [Z _].
      match goal with X : ev _ _ _ e [] _ (OFail _ _) |- _ => destruct (G_ev _ _ _ _ _ X He Lo R) as [_ Q] end. specialize (Q Rc M). cbn in Q. cbn. split; [exact B|]. rewrite Z. cbn. lia.
    - intros rule pt w acc en s _ _ _ _ _ _. apply evs_nil.
    - intros rule pt w e es acc en s v en' s' r H IH1 H2 IH2 He Lo Rc M R B. cbn [forallb] in He, Lo. apply andb_true_iff in He as [He1 He2], Lo as [L1 L2].
      pose proof (ev_track o g data Hg _ _ _ _ _ H He1 R) as T. cbn in T. pose proof (steps_reach _ _ _ R T) as R'. pose proof (M_ev _ _ _ _ _ H) as M'. cbn in M'.
      destruct (G_evs _ _ _ _ _ _ _ _ H2 He2 L2 R') as (A & Hh & C). specialize (Hh Rc).
      eapply (evs_ok _ _ _ _ _ _ _ _ _ _ v en' (trs s')).
      + apply (IH1 He1 L1 M R). destruct r; cbn in *; try contradiction; [lia|]. specialize (Hh ltac:(congruence)). lia.
      + apply IH2; auto; [|congruence]. destruct es; auto. cbn [forallb] in Rc. now apply andb_true_iff in Rc.
    - intros rule pt w e es acc en s en' s' H IH He Lo Rc M R B. cbn [forallb] in He, Lo. apply andb_true_iff in He as [He1 He2], Lo as [L1 L2]. cbn [tro]. rewrite trs_restore.
      change (trs (set_warns w s')) with (set_warns w (trs s')). eapply evs_fail. apply (IH He1 L1 M R). cbn in B. rewrite restore_mfpos in B. exact B.
    - intros rule pt w e es acc en s m x s' _ _ _ _ _ _ _ [].
    - intros rule en s _ _ _ _ _. apply evc_nil.
    - intros rule e es en s v en' s' H IH He Lo M R B. cbn [forallb] in He, Lo. apply andb_true_iff in He as [He1 He2], Lo as [L1 L2]. eapply evc_ok. exact (IH He1 L1 M R B).
    - intros rule e es en s en' s' r H IH1 H2 IH2 He Lo M R B. cbn [forallb] in He, Lo. apply andb_true_iff in He as [He1 He2], Lo as [L1 L2].
      destruct (ev_track o g data Hg _ _ _ _ _ H He1 R) as [T _]. pose proof (M_ev _ _ _ _ _ H) as M'. cbn in M'.
      assert (R' : Reach data (s_pt (set_warns (s_warns s) s'))) by (cbn; now rewrite T).
      destruct (G_evc _ _ _ _ _ H2 He2 L2 R') as [A _]. eapply evc_next.
      + apply (IH1 He1 L1 M R). destruct r; cbn in *; try contradiction; lia.
      + change (set_warns (s_warns (trs s)) (trs s')) with (trs (set_warns (s_warns s) s')). apply IH2; auto. cbn. congruence.
    - intros rule e es en s m x s' _ _ _ _ _ _ [].
    - intros rule e acc en s en' s' H IH He Lo M R B. eapply evt_stop. apply (IH He Lo M R). cbn in *. tauto.
    - intros rule e acc en s v en' s' r H IH1 H2 IH2 He Lo M R B.
      pose proof (ev_track o g data Hg _ _ _ _ _ H He R) as T. cbn in T. pose proof (steps_reach _ _ _ R T) as R'. pose proof (M_ev _ _ _ _ _ H) as M'. cbn in M'.
      destruct (G_evt _ _ _ _ _ _ H2 He Lo R') as (A & C & _). eapply evt_more.
      + apply (IH1 He Lo M R). destruct r; cbn in *; try contradiction; lia.
      + apply IH2; auto. congruence.
    - intros rule e acc en s m x s' _ _ _ _ _ _ [].
  Qed.
  Lemma tr_start : ahead <= K -> tr (start_pt data) = start_pt data'.
  Proof.
    intros L. assert (E : decode_rune data = decode_rune data'). { apply decode_first. unfold ahead in L. rewrite <- (skipn_O data), <- (skipn_O data'). eapply firstn_skipn_same; [exact HK|lia]. }
    unfold start_pt. rewrite E. destruct (_ =? NL)%N; reflexivity.
  Qed.
  Lemma tr_init ff : ahead <= K -> trs (init_st o ff data) = init_st o ff data'.
  Proof.
    intros L. unfold init_st. unfold ahead in *. rewrite trs_check; cbn [s_pt]; [|constructor|unfold start_pt; destruct (_ =? NL)%N; cbn; lia]. f_equal. unfold trs. cbn. now rewrite tr_start.
  Qed.
End Local.
