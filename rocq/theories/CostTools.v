(** Tools for the cost of conditions and branches: what an expression can do at a
    text that does not start with certain bytes, which bytes it can consume, and
    how sequences run. *)
From Coq Require Import List NArith ZArith Bool String Arith Lia.
From Verif Require Import Bytes Utf8 F64 Ast Peg Actions Engine Parser GrammarGen QuoteFacts PosFacts Run EngineFacts
  Termination LimitFacts MemoFacts Rules Cost CostFacts CostLex CostTok CostVal.
From Verif Require SoundLex.
Import ListNotations.

Lemma rune_first s c : (c < 128)%N -> c <> RuneError -> fst (decode_rune s) = c -> exists t, s = c :: t /\ adv s = t.
Proof.
  intros H N E. destruct (SoundLex.rune_ascii' s c H E N) as (t & ->). exists t. split; [reflexivity|].
  unfold adv. now rewrite SoundLex.decode_ascii.
Qed.

(** ** Texts that do not start with a byte of [L] *)
Definition avoid (L : list N) (s : bytes) : Prop := match s with [] => True | c :: _ => ~ In c L end.
Lemma avoid_sub L L' s : (forall c, In c L' -> In c L) -> avoid L s -> avoid L' s.
Proof. destruct s; cbn; auto. Qed.
Definition mem (c : N) (L : list N) : bool := existsb (N.eqb c) L.
Lemma mem_in c L : mem c L = true <-> In c L.
Proof. unfold mem. rewrite existsb_exists. split; [intros (x & I & E); apply N.eqb_eq in E; now subst|intros I; exists c; split; [exact I|apply N.eqb_refl]]. Qed.

(** all values from lo to hi *)
Definition span (lo hi : N) : list N := map (fun i => (lo + N.of_nat i)%N) (seq 0 (N.to_nat (hi + 1 - lo))).
Lemma in_span lo hi c : (lo <= c)%N -> (c <= hi)%N -> In c (span lo hi).
Proof.
  intros H1 H2. unfold span. apply in_map_iff. exists (N.to_nat (c - lo)). split; [lia|]. apply in_seq. lia.
Qed.
(** the bytes a class of ASCII characters can match *)
Definition class_bytes (cs : list N) (rs : list (N * N)) : list N := cs ++ flat_map (fun x => span (fst x) (snd x)) rs.
Definition ascii (L : list N) : bool := forallb (fun c => (c <? 128)%N) L.
Lemma class_first cs rs s : ascii (class_bytes cs rs) = true -> class_match cs rs false (fst (decode_rune s)) = true ->
  exists c t, s = c :: t /\ adv s = t /\ In c (class_bytes cs rs).
Proof.
  intros A H. set (c := fst (decode_rune s)) in *.
  assert (I : In c (class_bytes cs rs)).
  { unfold class_match in H. rewrite xorb_false_r in H. unfold class_bytes. apply in_app_iff. apply orb_true_iff in H as [H|H]; apply existsb_exists in H as (x & I & E).
    - left. rewrite N.eqb_eq in E. subst. exact I.
    - right. apply in_flat_map. exists x. split; [exact I|]. rewrite andb_true_iff, !N.leb_le in E. apply in_span; tauto. }
  assert (c < 128)%N. { unfold ascii in A. rewrite forallb_forall in A. now apply N.ltb_lt, A. }
  destruct (rune_first s c) as (t & E & E'); auto; [unfold RuneError; lia|]. eauto.
Qed.

(** what [e] does at such a text: it fails; it succeeds without consuming; unknown *)
Inductive verdict := Dead | Pass | Unsure.
Section Look.
  Variable L : list N.
  Fixpoint look_choice (l : list verdict) : verdict :=
    match l with [] => Dead | Dead :: l' => look_choice l' | Pass :: _ => Pass | Unsure :: _ => Unsure end.
  Fixpoint look_seq (l : list verdict) : verdict :=
    match l with [] => Pass | Dead :: _ => Dead | Pass :: l' => look_seq l' | Unsure :: _ => Unsure end.
  Definition look1 (ref : string -> verdict) : expr -> verdict :=
    fix d (e : expr) : verdict :=
      match e with
      | EAct _ e => match d e with Dead => Dead | _ => Unsure end
      | ELab _ e => d e
      | EStateCode _ | EAndCode PInitParser => Pass
      | EAndCode (PPushError _) => Dead
      | EAndCode (PFatalError _) => Unsure
      | EAny => Unsure
      | EClass _ cs rs inv => if negb inv && ascii (class_bytes cs rs) && forallb (fun c => mem c L) (class_bytes cs rs) then Dead else Unsure
      | ELit _ (r :: _) => if (r <? 128)%N && mem r L then Dead else Unsure
      | ELit _ [] => Pass
      | EChoice l => look_choice (map d l)
      | ESeq l => look_seq (map d l)
      | ENot e => match d e with Dead => Pass | Pass => Dead | Unsure => Unsure end
      | EPlus e => match d e with Dead => Dead | _ => Unsure end
      | EStar e => match d e with Dead => Pass | _ => Unsure end
      | EOpt e => match d e with Dead | Pass => Pass | Unsure => Unsure end
      | ERef n => ref n
      end.
  Fixpoint look (n : nat) : expr -> verdict :=
    look1 (fun m => match n with
                    | O => Unsure
                    | S n' => match find_rule m gen_grammar with Some e => look n' e | None => Dead end
                    end).

  Definition says (v : verdict) (s : bytes) (r : cres) : Prop :=
    match v with Dead => r = CFail | Pass => r = COk s | Unsure => True end.

  Lemma look_all :
    (forall e s r k, ce e s r k -> avoid L s -> forall n, says (look n e) s r) /\
    (forall es s r k, cevs gg es s r k -> avoid L s -> forall n, says (look_seq (map (look n) es)) s r) /\
    (forall es s r k, cevc gg es s r k -> avoid L s -> forall n, says (look_choice (map (look n) es)) s r) /\
    (forall e s r k, cevt gg e s r k -> avoid L s -> forall n, look n e = Dead -> r = COk s).
  Proof.
    apply cev_mutind.
    - intros e s r P A n. destruct e; cbn [cprim] in P; try discriminate P; destruct n; cbn [look look1].
      1,2: destruct p; injection P as <-; exact eq_refl || exact I.
      1,2: injection P as <-; reflexivity.
      1,2: exact I.
      1,2: injection P as <-; destruct (negb inverted && ascii (class_bytes chars ranges) && _) eqn:E; [|exact I];
        apply andb_true_iff in E as [E E3]; apply andb_true_iff in E as [E1 E2]; destruct inverted; [discriminate|];
        destruct s as [|c0 s]; [reflexivity|]; destruct (class_match chars ranges false (fst (decode_rune (c0 :: s)))) eqn:M; [|reflexivity];
        exfalso; destruct (class_first _ _ _ E2 M) as (c & t & Es & _ & Ic); injection Es as -> ->;
        rewrite forallb_forall in E3; apply A; apply mem_in, E3, Ic.
      1,2: injection P as <-; destruct runes as [|c rs]; [reflexivity|]; destruct ((c <? 128)%N && mem c L) eqn:E; [|exact I];
        apply andb_true_iff in E as [E1 E2]; apply N.ltb_lt in E1; cbn [lit_rest];
        destruct (N.eqb_spec (fst (decode_rune s)) c) as [M|]; [|reflexivity];
        exfalso; (destruct (rune_first s c E1) as (t & Es & _); [unfold RuneError; lia|exact M|]); subst s; apply A, mem_in, E2.
    - intros m s F A n. destruct n; cbn [look look1]; [exact I|]. rewrite F. reflexivity.
    - intros a e s r k _ IH A n. specialize (IH A n). destruct n; cbn [look look1] in *;
        match goal with |- says (match ?d with _ => _ end) _ _ => destruct d end; try exact I; exact IH.
    - intros a e s q k _ IH A n. specialize (IH A n). destruct n; cbn [look look1] in *;
        match goal with |- says (match ?d with _ => _ end) _ _ => destruct d end; try exact I; discriminate IH.
    - intros a e s r k _ IH A n. specialize (IH A n). destruct n; exact IH.
    - intros e s q k _ IH A n. specialize (IH A n). destruct n; cbn [look look1] in *;
        match goal with |- says (match ?d with _ => _ end) _ _ => destruct d end; try exact I; try reflexivity; discriminate IH.
    - intros e s k _ IH A n. specialize (IH A n). destruct n; cbn [look look1] in *;
        match goal with |- says (match ?d with _ => _ end) _ _ => destruct d end; try exact I; try reflexivity; discriminate IH.
    - intros e s k _ IH A n. specialize (IH A n). destruct n; cbn [look look1] in *;
        match goal with |- says (match ?d with _ => _ end) _ _ => destruct d end; try exact I; try reflexivity; discriminate IH.
    - intros e s r k _ IH Hr A n. specialize (IH A n). destruct n; cbn [look look1] in *;
        match goal with |- says (match ?d with _ => _ end) _ _ => destruct d end; try exact I; try exact IH; cbn in IH; congruence.
    - intros e s k _ IH A n. specialize (IH A n). destruct n; cbn [look look1] in *;
        match goal with |- says (match ?d with _ => _ end) _ _ => destruct d end; try exact I; try reflexivity.
    - intros m e s r k F _ IH A n. destruct n; cbn [look look1]; [exact I|]. rewrite F. exact (IH A n).
    - intros es s r k _ IH A n. specialize (IH A n). destruct n; exact IH.
    - intros es s r k _ IH A n. specialize (IH A n). destruct n; exact IH.
    - intros e s r k _ IH A n. specialize (IH A n). destruct n; cbn [look look1] in *;
        match goal with |- says (match ?d with _ => _ end) _ _ => destruct d end; try exact I; apply IH; reflexivity.
    - intros e s q r k k' _ IH _ _ A n. specialize (IH A n). destruct n; cbn [look look1] in *;
        match goal with |- says (match ?d with _ => _ end) _ _ => destruct d end; try exact I; discriminate IH.
    - intros e s r k _ IH Hr A n. specialize (IH A n). destruct n; cbn [look look1] in *;
        match goal with |- says (match ?d with _ => _ end) _ _ => destruct d end; try exact I; exact IH.
    - intros s A n. exact eq_refl.
    - intros e es s q r k k' _ IH1 _ IH2 A n. specialize (IH1 A n). cbn [map look_seq]. destruct (look n e); [discriminate IH1| |exact I].
      cbn in IH1. injection IH1 as ->. exact (IH2 A n).
    - intros e es s r k _ IH Hr A n. specialize (IH A n). cbn [map look_seq]. destruct (look n e); [exact IH| |exact I].
      cbn in IH. destruct Hr; congruence.
    - intros s A n. exact eq_refl.
    - intros e es s r k _ IH Hr A n. specialize (IH A n). cbn [map look_choice]. destruct (look n e); [cbn in IH; congruence|exact IH|exact I].
    - intros e es s r k k' _ IH1 _ IH2 A n. specialize (IH1 A n). cbn [map look_choice]. destruct (look n e); [exact (IH2 A n)|discriminate IH1|exact I].
    - intros e s k _ _ _ n _. reflexivity.
    - intros e s k _ IH A n H. specialize (IH A n). rewrite H in IH. discriminate IH.
    - intros e s q r k k' _ IH1 _ _ A n H. specialize (IH1 A n). rewrite H in IH1. discriminate IH1.
  Qed.
End Look.
Lemma look_dead L n e s r k : look L n e = Dead -> avoid L s -> ce e s r k -> r = CFail.
Proof. intros H A C. pose proof (proj1 (look_all L) _ _ _ _ C A n) as X. rewrite H in X. exact X. Qed.
Lemma look_pass L n e s r k : look L n e = Pass -> avoid L s -> ce e s r k -> r = COk s.
Proof. intros H A C. pose proof (proj1 (look_all L) _ _ _ _ C A n) as X. rewrite H in X. exact X. Qed.
Lemma look_dead_t L n e s r k : look L n e = Dead -> avoid L s -> tev e s r k -> r = CFail.
Proof. intros H A T. apply tev_ce in T as (? & C). eapply look_dead; eauto. Qed.
(** an expression that does not fail starts with one of the bytes *)
Lemma head_of L n e s r k : look L n e = Dead -> ce e s r k -> r <> CFail -> exists c t, s = c :: t /\ In c L.
Proof.
  intros H C Hr. destruct s as [|c t].
  - destruct Hr. eapply look_dead; eauto. exact I.
  - exists c, t. split; [reflexivity|]. destruct (in_dec N.eq_dec c L) as [J|J]; [exact J|]. destruct Hr. exact (look_dead L n e (c :: t) r k H J C).
Qed.

(** ** Which bytes an expression can consume *)
Fixpoint only (L : list N) (e : expr) : bool :=
  match e with
  | EAct _ e | ELab _ e | EPlus e | EStar e | EOpt e => only L e
  | EAndCode _ | EStateCode _ | ENot _ => true
  | EAny | ERef _ => false
  | EClass _ cs rs inv => negb inv && ascii (class_bytes cs rs) && forallb (fun c => mem c L) (class_bytes cs rs)
  | ELit _ rs => ascii rs && forallb (fun c => mem c L) rs
  | EChoice l | ESeq l => forallb (only L) l
  end.
Lemma lit_bytes rs : forall s q, ascii rs = true -> lit_rest rs s = Some q -> s = rs ++ q.
Proof.
  induction rs as [|c rs IH]; intros s q A H; cbn in H; [injection H as ->; reflexivity|].
  cbn in A. apply andb_true_iff in A as [A1 A2]. apply N.ltb_lt in A1.
  destruct (N.eqb_spec (fst (decode_rune s)) c) as [M|]; [|discriminate].
  destruct (rune_first s c A1) as (t & -> & E); [unfold RuneError; lia|exact M|]. rewrite E in H. cbn. f_equal. auto.
Qed.
Section Only.
  Variable L : list N.
  Definition eats (s : bytes) (r : cres) : Prop :=
    match r with COk q => exists x, s = x ++ q /\ Forall (fun c => In c L) x | _ => True end.
  Lemma only_all :
    (forall e s r k, ce e s r k -> only L e = true -> eats s r) /\
    (forall es s r k, cevs gg es s r k -> forallb (only L) es = true -> eats s r) /\
    (forall es s r k, cevc gg es s r k -> forallb (only L) es = true -> eats s r) /\
    (forall e s r k, cevt gg e s r k -> only L e = true -> eats s r).
  Proof.
    assert (Z : forall s, eats s (COk s)) by (intros s; exists []; split; [reflexivity|constructor]).
    assert (Tr : forall s q r, eats s (COk q) -> eats q r -> eats s r).
    { intros s q r (x & -> & F) K. destruct r; cbn in *; auto. destruct K as (y & -> & F'). exists (x ++ y). split; [now rewrite app_assoc|now apply Forall_app]. }
    apply cev_mutind; try solve [intros; exact I]; try solve [intros; cbn [only] in *; auto].
    - intros e s r P H. destruct e; cbn [cprim] in P; try discriminate P; cbn [only] in H; try discriminate H.
      + destruct p; injection P as <-; auto; exact I.
      + injection P as <-. auto.
      + injection P as <-. apply andb_true_iff in H as [H H3]. apply andb_true_iff in H as [H1 H2]. destruct inverted; [discriminate|].
        destruct s as [|c0 s]; [exact I|]. destruct (class_match _ _ _ _) eqn:M; [|exact I].
        destruct (class_first _ _ _ H2 M) as (c & t & Es & Ea & Ic). rewrite Ea, Es. exists [c]. split; [reflexivity|].
        constructor; [|constructor]. rewrite forallb_forall in H3. apply mem_in, H3, Ic.
      + injection P as <-. apply andb_true_iff in H as [H1 H2]. destruct (lit_rest runes s) as [q|] eqn:E; [|exact I].
        exists runes. split; [now apply lit_bytes|]. apply Forall_forall. intros c Ic. rewrite forallb_forall in H2. apply mem_in, H2, Ic.
    - intros. discriminate.
    - intros e s q r k k' _ IH1 _ IH2 H. cbn [only] in H. eauto.
    - intros e es s q r k k' _ IH1 _ IH2 H. cbn [forallb] in H. apply andb_true_iff in H as [H1 H2]. eauto.
    - intros e es s r k _ IH Hr H. destruct Hr as [-> | ->]; exact I.
    - intros e es s r k _ IH Hr H. cbn [forallb] in H. apply andb_true_iff in H as [H1 H2]. auto.
    - intros e es s r k k' _ _ _ IH H. cbn [forallb] in H. apply andb_true_iff in H as [H1 H2]. auto.
    - intros e s q r k k' _ IH1 _ IH2 H. eauto.
  Qed.
End Only.
Lemma only_eats L e s q k : only L e = true -> ce e s (COk q) k -> exists x, s = x ++ q /\ Forall (fun c => In c L) x.
Proof. intros H C. exact (proj1 (only_all L) _ _ _ _ C H). Qed.
(** ... so it does not go past a byte that is not among them *)
Lemma eats_prefix L (x q w t : bytes) : x ++ q = w ++ t -> Forall (fun c => In c L) x -> avoid L t -> exists w', w = x ++ w' /\ q = w' ++ t.
Proof.
  revert w. induction x as [|c x IH]; intros w E F A; cbn in E.
  - exists w. auto.
  - inversion F as [|? ? Fc Fx]; subst. destruct w as [|c' w].
    + cbn in E. subst t. destruct (A Fc).
    + cbn in E. injection E as <- E. destruct (IH w E Fx A) as (w' & -> & ->). exists w'. auto.
Qed.
Lemma stay L e w t q k : only L e = true -> avoid L t -> ce e (w ++ t) (COk q) k -> exists x w', w = x ++ w' /\ q = w' ++ t.
Proof.
  intros H A C. destruct (only_eats _ _ _ _ _ H C) as (x & E & F). symmetry in E. destruct (eats_prefix _ _ _ _ _ E F A) as (w' & E1 & E2). eauto.
Qed.

(** ** Inversion *)
Lemma inv_leaf e s r k : leaf e = true -> tev e s r k -> k = 1 /\ exists k', ce e s r k'.
Proof. intros H T. inversion T; subst; try congruence; eauto; try discriminate H. Qed.
Lemma inv_act a e s r k : leaf (EAct a e) = false -> tev (EAct a e) s r k ->
  exists k' r', k = S k' /\ tev e s r' k' /\ (r = r' \/ (r = CPanic /\ exists q, r' = COk q)).
Proof. intros H T. inversion T; subst; try congruence; [exists k0, r; auto|exists k0, (COk q); eauto 10]. Qed.
Lemma inv_lab l e s r k : leaf (ELab l e) = false -> tev (ELab l e) s r k -> exists k', k = S k' /\ tev e s r k'.
Proof. intros H T. inversion T; subst; try congruence; eauto. Qed.
Lemma inv_opt e s r k : leaf (EOpt e) = false -> tev (EOpt e) s r k ->
  exists k', k = S k' /\ ((tev e s r k' /\ r <> CFail) \/ (tev e s CFail k' /\ r = COk s)).
Proof. intros H T. inversion T; subst; try congruence; eauto. Qed.
Lemma inv_ref n e s r k : find_rule n gen_grammar = Some e -> tev (ERef n) s r k -> exists k', k = S k' /\ tev e s r k'.
Proof. intros H T. inversion T; subst; [discriminate|]. replace e with e0 by congruence. eauto. Qed.
Lemma inv_seq es s r k : leaf (ESeq es) = false -> tev (ESeq es) s r k -> exists k', k = S k' /\ tevs es s r k'.
Proof. intros H T. inversion T; subst; try congruence; eauto. Qed.
Lemma inv_choice es s r k : leaf (EChoice es) = false -> tev (EChoice es) s r k -> exists k', k = S k' /\ tevc es s r k'.
Proof. intros H T. inversion T; subst; try congruence; eauto. Qed.
Lemma inv_star e s r k : leaf (EStar e) = false -> tev (EStar e) s r k -> exists k', k = S k' /\ tevt e s r k'.
Proof. intros H T. inversion T; subst; try congruence; eauto. Qed.
Lemma inv_cons e es s r k : tevs (e :: es) s r k ->
  (exists q k1 k2, k = k1 + k2 /\ tev e s (COk q) k1 /\ tevs es q r k2) \/ (tev e s r k /\ (r = CFail \/ r = CPanic)).
Proof. intros T. inversion T; subst; [left; eauto 10|right; auto]. Qed.
Lemma inv_alt e es s r k : tevc (e :: es) s r k ->
  (tev e s r k /\ r <> CFail) \/ (exists k1 k2, k = k1 + k2 /\ tev e s CFail k1 /\ tevc es s r k2).
Proof. intros T. inversion T; subst; [left; eauto 10|right; eauto 10]. Qed.

(** ** Sequences of tokens *)
Definition runs (l : list expr) (s q : bytes) : Prop := exists k, cevs gg l s (COk q) k.
Lemma runs_fun l s q q' : runs l s q -> runs l s q' -> q = q'.
Proof. intros (k & C) (k' & C'). destruct (proj1 (proj2 (cost_alike gg)) _ _ _ _ C _ _ C') as [X|[X|X]]; congruence. Qed.
Lemma runs_len l s q : forallb lits_ok l = true -> runs l s q -> (List.length q <= List.length s)%nat.
Proof. intros H (k & C). exact (proj1 (proj1 (proj2 (cost_shorter gg gen_nul gen_lits_ok gen_nul_ok)) _ _ _ _ C H)). Qed.
Lemma runs_lt l s q : forallb lits_ok l = true -> forallb (nul gen_nul) l = false -> runs l s q -> (List.length q < List.length s)%nat.
Proof. intros H N (k & C). exact (proj2 (proj1 (proj2 (cost_shorter gg gen_nul gen_lits_ok gen_nul_ok)) _ _ _ _ C H) N). Qed.
Lemma runs_cons e l s q : runs (e :: l) s q -> exists p k, ce e s (COk p) k /\ runs l p q.
Proof. intros (k & C). inversion C; subst; [exists q0, k0; split; [assumption|eexists; eassumption]|]. match goal with H : COk _ = CFail \/ _ |- _ => destruct H; discriminate end. Qed.
Lemma runs_app l m s q : runs (l ++ m) s q -> exists p, runs l s p /\ runs m p q.
Proof.
  revert s. induction l as [|e l IH]; intros s R; cbn in R.
  - exists s. split; [exists 0%nat; constructor|exact R].
  - apply runs_cons in R as (p & k & C & R). destruct (IH _ R) as (p' & (k1 & R1) & R2). exists p'. split; [|exact R2].
    eexists. eapply cs_ok; eauto.
Qed.
Lemma runs_snoc l e s p q k : runs l s p -> ce e p (COk q) k -> runs (l ++ [e]) s q.
Proof.
  revert s. induction l as [|x l IH]; intros s R C.
  - destruct R as (k0 & R). inversion R; subst. eexists. eapply cs_ok; [exact C|constructor].
  - apply runs_cons in R as (p' & k1 & C1 & R). destruct (IH _ R C) as (k2 & R2). eexists. eapply cs_ok; eauto.
Qed.
Lemma tokens l m : forall s r k, forallb leaf l = true -> tevs (l ++ m) s r k ->
  (exists q k2, runs l s q /\ tevs m q r k2 /\ k = (List.length l + k2)%nat) \/
  ((r = CFail \/ r = CPanic) /\ (k <= List.length l)%nat /\
   exists l1 e l2 q k', l = l1 ++ e :: l2 /\ runs l1 s q /\ ce e q r k').
Proof.
  induction l as [|e l IH]; intros s r k H T; cbn [List.app] in T.
  - left. exists s, k. split; [exists 0%nat; constructor|auto].
  - cbn [forallb] in H. apply andb_true_iff in H as [H1 H2]. apply inv_cons in T as [(q & k1 & k2 & -> & T1 & T2)|(T1 & Hr)].
    + destruct (inv_leaf _ _ _ _ H1 T1) as (-> & k' & C). destruct (IH _ _ _ H2 T2) as [(p & k3 & (kr & R) & T3 & ->)|(Hr & B & l1 & x & l2 & p & k3 & -> & (kr & R) & C3)].
      * left. exists p, k3. split; [eexists; eapply cs_ok; eauto|]. split; [exact T3|reflexivity].
      * right. split; [exact Hr|]. split; [cbn in *; lia|]. exists (e :: l1), x, l2, p, k3. split; [reflexivity|]. split; [eexists; eapply cs_ok; eauto|exact C3].
    + destruct (inv_leaf _ _ _ _ H1 T1) as (-> & k' & C). right. split; [exact Hr|]. split; [cbn; lia|].
      exists [], e, l, s, k'. split; [reflexivity|]. split; [exists 0%nat; constructor|exact C].
Qed.
(** nothing but tokens *)
Lemma tokens_all l s r k : forallb leaf l = true -> tevs l s r k ->
  (exists q, r = COk q /\ runs l s q /\ k = List.length l) \/
  ((r = CFail \/ r = CPanic) /\ (k <= List.length l)%nat /\ exists l1 e l2 q k', l = l1 ++ e :: l2 /\ runs l1 s q /\ ce e q r k').
Proof.
  intros H T. rewrite <- (app_nil_r l) in T. destruct (tokens _ _ _ _ _ H T) as [(q & k2 & R & T2 & ->)|X]; [left|right; exact X].
  inversion T2; subst. exists q. auto.
Qed.
