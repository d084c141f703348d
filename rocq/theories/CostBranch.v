(** The cost in tokens of branches, sections and whole files. *)
From Coq Require Import List NArith ZArith Bool String Arith Lia.
From Verif Require Import Bytes Utf8 F64 Ast Peg Actions Engine Parser GrammarGen QuoteFacts PosFacts Run EngineFacts
  Termination LimitFacts MemoFacts Rules Cost CostFacts CostLex CostTok CostVal CostTools CostCond CostWord.
From Verif Require SoundLex.
Import ListNotations.
Local Open Scope Z_scope.

(** ** The head of a plugin: a name, a gap, a brace *)
Definition named (s p : bytes) : Prop := exists p0, can name_e s p0 /\ runs [gaps_e; warn_e; lit "{"] p0 p.
Lemma can_lit c s q : ascii (b c) = true -> can (lit c) s q -> s = b c ++ q.
Proof.
  intros A (k & C). apply (prim_cost gg (lit c) _ _ _ _ eq_refl) in C as (C & _). destruct (lit_rest (b c) s) as [z|] eqn:E; [|discriminate].
  injection C as ->. now apply lit_bytes.
Qed.
Lemma word_ends s k : ce word_class s CFail k -> avoid wordb s.
Proof.
  intros C. destruct s as [|c s]; [exact I|]. intros J.
  assert (A : forallb (fun c => class_match [95; 45]%N [(65, 90); (97, 122); (48, 57)]%N false c && (c <? 128)%N) wordb = true) by vm.
  rewrite forallb_forall in A. specialize (A _ J). apply andb_true_iff in A as [A1 A2]. apply N.ltb_lt in A2.
  apply (prim_cost gg word_class _ _ _ _ eq_refl) in C as (C & _). cbn [cprim] in C.
  rewrite SoundLex.decode_ascii in C by exact A2. cbn [fst] in C. rewrite A1 in C. discriminate.
Qed.
Lemma named_word s p : named s p -> starts [101; 105]%N s ->
  exists u t p1, s = u ++ t /\ word u /\ avoid wordb t /\ can gap_e t p1 /\ starts [123]%N p1 /\ zl p < zl t.
Proof.
  intros (p0 & Nm & R) St. apply can_choice in Nm as (e & I & C). destruct I as [<-|[<-|[]]].
  2: destruct (dead_can _ [34; 39]%N 0 _ _ _ St C ltac:(vm) ltac:(vm)).
  apply can_act in C. destruct C as (k & C). destruct (only_eats wordb (EPlus word_class) _ _ _ ltac:(vm) C) as (x & -> & W).
  destruct (can_plus _ _ _ (ex_intro _ _ C)) as (p2 & k2 & _ & T). apply star_end in T as (k3 & T). apply word_ends in T.
  pose proof R as L. apply runs_lt in L; [|vm|vm].
  apply (runs_app [gaps_e; warn_e] [lit "{"]) in R as (p1 & R1 & R2). apply gaps_warn in R1. apply runs1 in R2.
  exists x, p0, p1. split; [reflexivity|]. split; [exact W|]. split; [exact T|]. split; [exact R1|]. split; [|lia].
  destruct R2 as (k4 & R2). eapply (starts_of _ 0); [|exact R2|discriminate]. vm.
Qed.
Lemma prefix_word (x q u t : bytes) : x ++ q = u ++ t -> forallb (fun c => mem c wordb) x = true -> avoid wordb t -> exists w, u = x ++ w /\ q = w ++ t.
Proof.
  intros E H A. eapply eats_prefix; [exact E| |exact A]. apply Forall_forall. intros c I. rewrite forallb_forall in H. apply mem_in, H, I.
Qed.
Lemma cond_named u w t p1 s2 r k : word w -> avoid wordb t -> can gap_e t p1 -> starts [123]%N p1 ->
  runs [gaps_e; warn_e] (w ++ t) s2 -> tev (ERef "condition") s2 r k -> r <> CPanic -> (2 <= List.length u)%nat ->
  Z.of_nat k <= 1200 * (zl (u ++ w)) - 1000.
Proof.
  intros W A G B R T Hr Hu. rewrite app_length. destruct (gap_word t p1 G w s2 W R) as [(N & ->)|(-> & ->)].
  - apply (cond_word_cost t p1 A G B) in T; [|exact W|exact N|exact Hr]. lia.
  - apply (cond_brace_cost p1 B) in T. lia.
Qed.
Definition if_tokens := [lit "if"; gaps_e; warn_e].
Definition elif_tokens := [lit "else"; gaps_e; warn_e; lit "if"; gaps_e; warn_e].
Lemma lit_starts c n s q : look n 0 (lit c) = Dead -> can (lit c) s q -> starts n s.
Proof. intros H (k & C). eapply (starts_of _ 0); [exact H|exact C|discriminate]. Qed.
Lemma named_if s s2 r k p : runs if_tokens s s2 -> tev (ERef "condition") s2 r k -> r <> CPanic -> named s p ->
  Z.of_nat k <= 1200 * (zl s - zl p) - 1000.
Proof.
  intros R T Hr Nm. apply runs2 in R as (s1 & R1 & R).
  assert (St : starts [101; 105]%N s) by (eapply lit_starts; [|exact R1]; vm).
  destruct (named_word _ _ Nm St) as (u & t & p1 & E & W & A & G & B & L).
  apply can_lit in R1; [|vm]. rewrite R1 in E. destruct (prefix_word _ _ _ _ E ltac:(vm) A) as (w & -> & ->). apply word_app in W.
  pose proof (cond_named (b "if") w t p1 s2 r k W A G B R T Hr ltac:(apply Nat.leb_le; vm)) as X.
  rewrite R1. rewrite !app_length in *. lia.
Qed.
Lemma named_elif s s2 r k p : runs elif_tokens s s2 -> tev (ERef "condition") s2 r k -> r <> CPanic -> named s p ->
  Z.of_nat k <= 1200 * (zl s - zl p) - 1000.
Proof.
  intros R T Hr Nm. apply runs2 in R as (s1 & R1 & R).
  assert (St : starts [101; 105]%N s) by (eapply lit_starts; [|exact R1]; vm).
  destruct (named_word _ _ Nm St) as (u & t & p1 & E & W & A & G & B & L).
  apply can_lit in R1; [|vm]. rewrite R1 in E. destruct (prefix_word _ _ _ _ E ltac:(vm) A) as (w & -> & ->). apply word_app in W.
  apply (runs_app [gaps_e; warn_e] [lit "if"; gaps_e; warn_e]) in R as (s3 & R3 & R). apply runs2 in R as (s4 & R4 & R).
  destruct (gap_word t p1 G w s3 W R3) as [(N & ->)|(-> & ->)]; [|destruct (dead_can _ [105]%N 0 _ _ _ B R4 ltac:(vm) ltac:(vm))].
  apply can_lit in R4; [|vm]. symmetry in R4. destruct (prefix_word _ _ _ _ R4 ltac:(vm) A) as (w' & -> & ->). apply word_app in W.
  pose proof (cond_named (b "if") w' t p1 s2 r k W A G B R T Hr ltac:(apply Nat.leb_le; vm)) as X.
  rewrite R1. rewrite !app_length in *. lia.
Qed.

(** ** Debts: a failed else-if may have cost something that the plugin that follows pays *)
Definition debt (X : Z) (s : bytes) : Prop :=
  X = 0 \/ (0 <= X <= 600 * zl s + 1000 /\ exists s', can gap_e s s' /\ starts [101]%N s' /\ forall p, named s' p -> X <= 1200 * (zl s' - zl p)).
Definition K3 : Z := 3200.
(** what comes next is neither a branch nor a plugin nor a closing brace *)
Definition stuck (s : bytes) : Prop := exists s', can gap_e s s' /\ starts [101; 105]%N s'.
Definition at_if (s : bytes) : Prop := exists s', can gap_e s s' /\ starts [105]%N s'.
Definition at_else (s : bytes) : Prop := exists s', can gap_e s s' /\ starts [101]%N s'.
Lemma if_else s : at_if s -> at_else s -> False.
Proof.
  intros (s1 & G1 & c1 & t1 & E1 & I1) (s2 & G2 & c2 & t2 & E2 & I2). rewrite (can_fun _ _ _ _ G1 G2), E2 in E1. injection E1 as -> _.
  destruct I1 as [<-|[]], I2 as [X|[]]. discriminate.
Qed.
Definition BP (c : Z) (s : bytes) (r : cres) (k : nat) : Prop :=
  match r with
  | COk q => zl q < zl s /\
      ((at_if s /\ exists X, debt X q /\ Z.of_nat k <= K3 * (zl s - zl q) - 600 + X + c) \/
       (Z.of_nat k <= 1300 * (zl s - zl q) + 40 + c /\ (at_if s \/ Z.of_nat k <= 800 * zl s + 1000 + c) /\
        exists s' p, can gap_e s s' /\ named s' p /\ zl q <= zl p /\ zl s' <= zl s))
  | CFail => Z.of_nat k <= 45 + c \/ (at_if s /\ Z.of_nat k <= 600 * zl s + 1100 + c)
  | CPanic => (at_if s /\ Z.of_nat k <= K3 * zl s + 1000 + c) \/ Z.of_nat k <= 800 * zl s + 1100 + c
  end.

(** ** A block: branches and plugins up to the brace *)
Section Star.
  Variable e : expr.
  Variable c : Z.
  Variable n0 : nat.
  Hypothesis Hc : 0 <= c <= 50.
  Hypothesis He : forall s r k, (List.length s <= n0)%nat -> tev e s r k -> BP c s r k.

  Lemma bops_cost : forall n s r k X, (List.length s <= n)%nat -> (n <= n0)%nat -> debt X s -> tevt e s r k ->
    match r with
    | COk q => zl q <= zl s /\ (Z.of_nat k + X <= K3 * (zl s - zl q) + 100 \/ (stuck q /\ Z.of_nat k + X <= K3 * zl s + 1200))
    | CFail => False
    | CPanic => Z.of_nat k + X <= K3 * zl s + 2200
    end.
  Proof.
    induction n as [n IH] using (well_founded_induction lt_wf). intros s r k X Hn Hn0 D T. inversion T; subst.
    - match goal with H : tev e _ _ _ |- _ => apply He in H; [rename H into B|lia] end. split; [lia|]. unfold BP in B.
      destruct D as [->|(D1 & s' & G & St & D2)].
      + destruct B as [B|(Ai & B)]; [left; unfold K3; lia|right]. split; [|unfold K3; lia].
        destruct Ai as (s' & G & St). exists s'. split; [exact G|]. destruct St as (c0 & t0 & E0 & I0). exists c0, t0. split; [exact E0|]. cbn in *; tauto.
      + destruct B as [B|(Ai & B)]; [right|destruct (if_else s); [exact Ai|exists s'; auto]]. split; [|unfold K3; lia].
        exists s'. split; [exact G|]. destruct St as (c0 & t0 & E0 & I0). exists c0, t0. split; [exact E0|]. cbn in *; tauto.
    - match goal with H : tev e _ _ _ |- _ => apply He in H; [rename H into B|lia] end. unfold BP in B. unfold K3 in *.
      destruct D as [->|(D1 & s' & G & St & D2)]; [destruct B as [(_ & B)|B]; lia|].
      destruct B as [(Ai & _)|B]; [destruct (if_else s); [exact Ai|exists s'; auto]|lia].
    - match goal with H : tev e _ (COk ?z) _, H' : tevt _ ?z _ _ |- _ => apply He in H; [rename H into B; rename H' into T'; rename z into q|lia] end.
      unfold BP in B. destruct B as [L B].
      destruct B as [(Ai & Y & Dy & B)|(B & _ & s' & p & G & Nm & Lq & Ls)].
      + assert (X = 0) as ->. { destruct D as [D|(_ & s' & G & St & _)]; [exact D|]. destruct (if_else s); [exact Ai|exists s'; auto]. }
        apply (IH (List.length q)) with (X := Y) in T'; [|lia|lia|lia|exact Dy]. unfold K3 in *. destruct r; [|exact T'|lia].
        destruct T' as [L' T']. split; [lia|]. destruct T' as [T'|(Sk & T')]; [left; lia|right; split; [exact Sk|lia]].
      + assert (HX : X <= 1200 * (zl s - zl q)).
        { destruct D as [->|(D1 & s2 & G2 & St & D2)]; [lia|]. rewrite <- (can_fun _ _ _ _ G G2) in *. specialize (D2 _ Nm). lia. }
        apply (IH (List.length q)) with (X := 0) in T'; [|lia|lia|lia|now left]. unfold K3 in *. destruct r; [|exact T'|lia].
        destruct T' as [L' T']. split; [lia|]. destruct T' as [T'|(Sk & T')]; [left; lia|right; split; [exact Sk|lia]].
  Qed.
End Star.

Lemma BP_up c c' s r k j : BP c s r k -> c + Z.of_nat j <= c' -> BP c' s r (j + k)%nat.
Proof.
  unfold BP. intros H L. destruct r as [q| |].
  - destruct H as [H0 [(A & X & D & H)|(H & F & N)]]; (split; [exact H0|]).
    + left. split; [exact A|]. exists X. split; [exact D|lia].
    + right. split; [lia|]. split; [destruct F; [now left|right; lia]|exact N].
  - destruct H as [H|(A & H)]; [left; lia|right; split; [exact A|lia]].
  - destruct H as [(A & H)|H]; [left; split; [exact A|lia]|right; lia].
Qed.
Lemma BP_panic c s q k : 0 <= c -> BP c s (COk q) k -> BP c s CPanic k.
Proof.
  unfold BP, K3. intros Hc [L [(A & X & D & H)|(H & F & _)]].
  - left. split; [exact A|]. assert (X <= 600 * zl q + 1000) by (destruct D as [->|(D & _)]; lia). lia.
  - destruct F as [A|F]; [left; split; [exact A|lia]|right; lia].
Qed.
Lemma leaf_gap_lab l : leaf (ELab l gap_e) = true. Proof. vm. Qed.
Lemma inv_gap l s r k : tev (ELab l gap_e) s r k -> k = 1%nat /\ match r with COk q => can gap_e s q /\ zl q <= zl s | CFail => False | CPanic => True end.
Proof.
  intros T. destruct (inv_leaf _ _ _ _ (leaf_gap_lab l) T) as (-> & k' & C). split; [reflexivity|]. destruct r as [q| |]; [|exact (proj1 nf_all _ _ _ _ C eq_refl eq_refl)|exact I].
  split; [apply (can_lab l); eexists; exact C|]. destruct (ce_short (ELab l gap_e) _ _ _ eq_refl C) as [L _]. lia.
Qed.

Definition small3 (s : bytes) : Prop := forall s' r k, zl s' < zl s -> tev (ERef "branchOrPlugin") s' r k -> BP 0 s' r k.
Lemma at_if_gap s s' : can gap_e s s' -> at_if s' -> at_if s.
Proof. intros G (s2 & G2 & St). rewrite (gap_again _ _ _ G G2) in St. exists s'. auto. Qed.
Lemma block_elem s0 s r k : small3 s0 -> zl s < zl s0 -> tev block_bop_e s r k -> BP 10 s r k.
Proof.
  intros Sm L T. apply inv_act in T as (k1 & r' & -> & T & Hr); [|vm].
  assert (B : BP 8 s r' k1).
  { clear Hr. apply inv_seq in T as (k2 & -> & T); [|vm]. apply inv_cons in T as [(s' & k3 & k4 & -> & T3 & T4)|(T3 & Hf)].
    - apply inv_gap in T3 as (-> & G & Lg). apply inv_cons in T4 as [(q & k5 & k6 & -> & T5 & T6)|(T5 & Hf)].
      + inversion T6; subst. apply inv_lab in T5 as (k7 & -> & T5); [|vm]. apply Sm in T5; [|lia].
        apply (BP_up _ 8 _ _ _ 3) in T5; [|lia]. replace (S (1 + (S k7 + 0)))%nat with (3 + k7)%nat by lia.
        unfold BP in T5 |- *. destruct T5 as [L5 [(A & X & D & T5)|(T5 & F & s2 & p & G2 & N2 & Lq & Ls)]]; (split; [lia|]).
        * left. split; [eapply at_if_gap; eassumption|]. exists X. split; [exact D|unfold K3 in *; lia].
        * right. split; [lia|]. split; [destruct F as [F|F]; [left; eapply at_if_gap; eassumption|right; lia]|].
          rewrite (gap_again _ _ _ G G2) in *. exists s', p. repeat split; try assumption.
      + apply inv_lab in T5 as (k7 & -> & T5); [|vm]. apply Sm in T5; [|lia]. unfold BP in *. destruct Hf as [-> | ->].
        * destruct T5 as [T5|(A & T5)]; [left; lia|right]. split; [eapply at_if_gap; eassumption|lia].
        * destruct T5 as [(A & T5)|T5]; [left|right; lia]. split; [eapply at_if_gap; eassumption|unfold K3 in *; lia].
    - apply inv_gap in T3 as (-> & T3). destruct Hf as [-> | ->]; [contradiction|]. right. lia. }
  replace (S k1) with (1 + k1)%nat by lia. destruct Hr as [->|(-> & q & ->)]; (eapply BP_up; [|instantiate (1 := 8); lia]); [exact B|].
  eapply BP_panic; [lia|exact B].
Qed.
Definition bops_lab := ELab "bops" (EStar block_bop_e).
Definition foot_lab := ELab "footerComment" gap_e.
Definition brace := close "}" (fatal "expect closing curly bracket").
Lemma stuck_close q l p m : stuck q -> runs [ELab l gap_e; close "}" (fatal m)] q p -> False.
Proof.
  intros (q1 & G & St) R. apply runs2 in R as (q2 & G2 & R). apply can_lab in G2. rewrite <- (can_fun _ _ _ _ G G2) in R. apply runs1 in R.
  destruct R as (k & C). apply close_ok in C. exact (dead_can _ [125]%N 0 _ _ _ St C ltac:(vm) ltac:(vm)).
Qed.
Lemma block_cost s0 s r k : small3 s0 -> zl s < zl s0 -> tevs [bops_lab; foot_lab; brace] s r k ->
  match r with
  | COk q => zl q <= zl s /\ Z.of_nat k <= K3 * (zl s - zl q) + 150
  | CFail => False
  | CPanic => Z.of_nat k <= K3 * zl s + 2300
  end.
Proof.
  intros Sm L T. apply inv_cons in T as [(q & k1 & k2 & -> & T1 & T2)|(T1 & Hf)].
  - apply inv_lab in T1 as (k3 & -> & T1); [|vm]. apply inv_star in T1 as (k4 & -> & T1); [|vm].
    apply (bops_cost block_bop_e 10 (List.length s)) with (n := List.length s) (X := 0) in T1; [|lia| |lia|lia|now left].
    2: { intros s' r0 k0 L' T0. eapply (block_elem s0); [exact Sm|lia|exact T0]. }
    destruct T1 as [Lq T1]. assert (T3 := T2). destruct (tokens_all [foot_lab; brace] _ _ _ ltac:(vm) T2) as [(p & -> & R & ->)|(Hf & Hk & _)].
    + pose proof R as R'. apply runs_len in R'; [|vm]. change (List.length [foot_lab; brace]) with 2%nat.
      destruct T1 as [T1|(Sk & _)]; [split; unfold K3 in *; lia|]. destruct (stuck_close _ _ _ _ Sk R).
    + change (List.length [foot_lab; brace]) with 2%nat in Hk. destruct Hf as [-> | ->].
      * destruct (proj1 (proj2 tev_cev_all) _ _ _ _ T3) as (k5 & C). exact (proj1 (proj2 nf_all) _ _ _ _ C eq_refl eq_refl).
      * unfold K3 in *. destruct T1 as [T1|(_ & T1)]; lia.
  - apply inv_lab in T1 as (k3 & -> & T1); [|vm]. apply inv_star in T1 as (k4 & -> & T1); [|vm].
    apply (bops_cost block_bop_e 10 (List.length s)) with (n := List.length s) (X := 0) in T1; [|lia| |lia|lia|now left].
    2: { intros s' r0 k0 L' T0. eapply (block_elem s0); [exact Sm|lia|exact T0]. }
    destruct Hf as [-> | ->]; [exact T1|lia].
Qed.

(** ** The parts of a branch *)
Definition cond_block := [cond_lab; gaps_e; warn_e; lit "{"; bops_lab; foot_lab; brace].
Definition HB (pre : list expr) (s : bytes) (r : cres) (k : nat) : Prop :=
  match r with
  | COk q => zl q < zl s /\ Z.of_nat k <= K3 * (zl s - zl q) - 2000 /\ exists s2, runs pre s s2
  | CFail => Z.of_nat k <= 10 \/ ((exists s2, runs pre s s2) /\ Z.of_nat k <= 600 * zl s + 950 /\ forall p, named s p -> Z.of_nat k <= 1200 * (zl s - zl p) - 900)
  | CPanic => Z.of_nat k <= 10 \/ ((exists s2, runs pre s s2) /\ Z.of_nat k <= K3 * zl s + 900)
  end.
Lemma head_cost pre s0 s r k : small3 s0 -> zl s <= zl s0 ->
  forallb leaf pre = true -> forallb lits_ok pre = true -> forallb (nul gen_nul) pre = false -> (List.length pre <= 6)%nat ->
  (forall s2 r k p, runs pre s s2 -> tev (ERef "condition") s2 r k -> r <> CPanic -> named s p -> Z.of_nat k <= 1200 * (zl s - zl p) - 1000) ->
  tevs (pre ++ cond_block) s r k -> HB pre s r k.
Proof.
  intros Sm L H1 H2 H3 H4 Hn T. destruct (tokens pre cond_block _ _ _ H1 T) as [(s2 & k1 & R & T1 & ->)|(Hf & Hk & _)].
  2: { destruct Hf as [-> | ->]; unfold HB; left; lia. }
  pose proof R as R'. apply runs_lt in R'; [|exact H2|exact H3]. specialize (fun r k p => Hn s2 r k p R).
  apply inv_cons in T1 as [(q & k2 & k3 & -> & T2 & T3)|(T2 & Hf)].
  - apply inv_lab in T2 as (k4 & -> & T2); [|vm]. pose proof (cond_short _ _ _ T2) as Lq. pose proof (fun p => Hn _ _ p T2 ltac:(discriminate)) as Hn'.
    apply cond_cost in T2. unfold CD in T2.
    destruct (tokens [gaps_e; warn_e; lit "{"] [bops_lab; foot_lab; brace] _ _ _ ltac:(vm) T3) as [(q2 & k5 & R2 & T5 & ->)|(Hf & Hk & _)].
    + pose proof R2 as R2'. apply runs_lt in R2'; [|vm|vm]. change (List.length [gaps_e; warn_e; lit "{"]) with 3%nat.
      destruct T2 as [T2|((q1 & D & St) & _)].
      2: { exfalso. apply (runs_app [gaps_e; warn_e] [lit "{"]) in R2 as (q3 & R3 & R4). rewrite <- (runs_fun _ _ _ _ D R3) in R4.
           apply runs1 in R4. exact (dead_can _ [123]%N 0 _ _ _ St R4 ltac:(vm) ltac:(vm)). }
      apply (block_cost s0) in T5; [|exact Sm|lia]. unfold HB, K3 in *. destruct r as [p| |]; [|contradiction|].
      * destruct T5. split; [lia|]. split; [lia|eauto].
      * right. split; [eauto|lia].
    + change (List.length [gaps_e; warn_e; lit "{"]) with 3%nat in Hk.
      assert (Z.of_nat k4 <= 600 * zl s2 + 900) by (destruct T2 as [T2|(_ & T2)]; lia).
      destruct Hf as [-> | ->]; unfold HB.
      * right. split; [eauto|]. split; [lia|]. intros p Nm. specialize (Hn' p Nm). lia.
      * right. split; [eauto|]. unfold K3. lia.
  - apply inv_lab in T2 as (k4 & -> & T2); [|vm]. destruct Hf as [-> | ->]; unfold HB.
    + right. split; [eauto|]. pose proof (fun p => Hn _ _ p T2 ltac:(discriminate)) as Hn'. apply cond_cost in T2. unfold CD in T2.
      split; [destruct T2 as [T2|(_ & T2)]; lia|]. intros p Nm. specialize (Hn' p Nm). lia.
    + right. split; [eauto|]. apply cond_cost in T2. unfold CD in T2. unfold K3. lia.
Qed.

Lemma HB_wrap pre s r r' k : HB pre s r' k -> (r = r' \/ (r = CPanic /\ exists q, r' = COk q)) -> HB pre s r k.
Proof. intros H [->|(-> & q & ->)]; [exact H|]. unfold HB, K3 in *. destruct H as (L & H & E). right. split; [exact E|lia]. Qed.
(** the same with three more steps *)
Definition HB' (pre : list expr) (s : bytes) (r : cres) (k : nat) : Prop :=
  match r with
  | COk q => zl q < zl s /\ Z.of_nat k <= K3 * (zl s - zl q) - 1990 /\ exists s2, runs pre s s2
  | CFail => Z.of_nat k <= 20 \/ ((exists s2, runs pre s s2) /\ Z.of_nat k <= 600 * zl s + 960 /\ forall p, named s p -> Z.of_nat k <= 1200 * (zl s - zl p) - 890)
  | CPanic => Z.of_nat k <= 20 \/ ((exists s2, runs pre s s2) /\ Z.of_nat k <= K3 * zl s + 910)
  end.
Lemma HB_ref pre s r k : HB pre s r k -> HB' pre s r (S (S (S k))).
Proof.
  unfold HB, HB'. destruct r as [q| |].
  - intros (? & ? & ?). split; [lia|]. split; [lia|assumption].
  - intros [?|(? & ? & F)]; [left; lia|right]. split; [assumption|]. split; [lia|]. intros p Nm. specialize (F p Nm). lia.
  - intros [?|(? & ?)]; [left; lia|right]. split; [assumption|lia].
Qed.
Lemma if_cost s0 s r k : small3 s0 -> zl s <= zl s0 -> tev (ERef "ifCond") s r k -> HB' if_tokens s r k.
Proof.
  intros Sm L T. apply (inv_ref _ ifCond_e) in T as (k0 & -> & T); [|vm]. apply inv_act in T as (k1 & r' & -> & T & Hr); [|vm].
  apply inv_seq in T as (k2 & -> & T); [|vm]. apply HB_ref. eapply HB_wrap; [|exact Hr].
  apply (head_cost if_tokens s0); [exact Sm|exact L|vm|vm|vm|apply Nat.leb_le; vm| |exact T].
  intros s2 r0 k0 p. apply named_if.
Qed.
Lemma elif_cost s0 s r k : small3 s0 -> zl s <= zl s0 -> tev (ERef "elseIf") s r k -> HB' elif_tokens s r k.
Proof.
  intros Sm L T. apply (inv_ref _ elseIf_e) in T as (k0 & -> & T); [|vm]. apply inv_act in T as (k1 & r' & -> & T & Hr); [|vm].
  apply inv_seq in T as (k2 & -> & T); [|vm]. apply HB_ref. eapply HB_wrap; [|exact Hr].
  apply (head_cost elif_tokens s0); [exact Sm|exact L|vm|vm|vm|apply Nat.leb_le; vm| |exact T].
  intros s2 r0 k0 p. apply named_elif.
Qed.
Definition else_tokens := [lit "else"; gaps_e; warn_e; lit "{"].
Lemma else_cost s0 s r k : small3 s0 -> zl s <= zl s0 -> tev (ERef "elseCond") s r k ->
  match r with
  | COk q => zl q < zl s /\ Z.of_nat k <= K3 * (zl s - zl q) - 1990 /\ exists s2, runs else_tokens s s2
  | CFail => Z.of_nat k <= 20
  | CPanic => Z.of_nat k <= 20 \/ (Z.of_nat k <= K3 * zl s + 910 /\ exists s2, runs else_tokens s s2)
  end.
Proof.
  intros Sm L T. apply (inv_ref _ elseCond_e) in T as (k0 & -> & T); [|vm]. apply inv_act in T as (k1 & r' & -> & T & Hr); [|vm].
  apply inv_seq in T as (k2 & -> & T); [|vm].
  destruct (tokens else_tokens [bops_lab; foot_lab; brace] _ _ _ ltac:(vm) T) as [(s2 & k3 & R & T1 & ->)|(Hf & Hk & _)].
  - change (List.length else_tokens) with 4%nat. pose proof R as R'. apply runs_lt in R'; [|vm|vm].
    apply (block_cost s0) in T1; [|exact Sm|lia]. unfold K3 in *. destruct r' as [q| |]; [|contradiction|].
    + destruct Hr as [->|(-> & _)]; [split; [lia|split; [lia|eauto]]|right; split; [lia|eauto]].
    + destruct Hr as [->|(-> & _)]; right; (split; [lia|eauto]).
  - change (List.length else_tokens) with 4%nat in Hk. unfold K3. destruct Hr as [->|(-> & q & ->)]; [|destruct Hf; discriminate]. destruct Hf as [-> | ->]; lia.
Qed.

(** a failed else-if that was expensive *)
Definition elif_left (X : Z) (s : bytes) : Prop :=
  0 <= X <= 600 * zl s + 1000 /\
  exists s' s2, can gap_e s s' /\ runs elif_tokens s' s2 /\ forall p, named s' p -> X <= 1200 * (zl s' - zl p).
Lemma more_elif_cost s0 s r k : small3 s0 -> zl s <= zl s0 -> tev more_elseif_e s r k ->
  match r with
  | COk q => zl q < zl s /\ Z.of_nat k <= K3 * (zl s - zl q) - 1900
  | CFail => Z.of_nat k <= 30 \/ elif_left (Z.of_nat k) s
  | CPanic => Z.of_nat k <= K3 * zl s + 930
  end.
Proof.
  intros Sm L T. apply inv_act in T as (k1 & r' & -> & T & Hr); [|vm]. apply inv_seq in T as (k2 & -> & T); [|vm].
  apply inv_cons in T as [(s' & k3 & k4 & -> & T3 & T4)|(T3 & Hf)].
  - apply inv_gap in T3 as (-> & G & Lg). apply inv_cons in T4 as [(q & k5 & k6 & -> & T5 & T6)|(T5 & Hf)].
    + inversion T6; subst. apply inv_lab in T5 as (k7 & -> & T5); [|vm]. apply (elif_cost s0) in T5; [|exact Sm|lia]. unfold HB', K3 in *. destruct T5 as (? & ? & _).
      destruct Hr as [->|(-> & _)]; [split; lia|lia].
    + apply inv_lab in T5 as (k7 & -> & T5); [|vm]. apply (elif_cost s0) in T5; [|exact Sm|lia]. unfold HB', K3 in *.
      destruct Hr as [->|(-> & q & ->)]; [|destruct Hf; discriminate]. destruct Hf as [-> | ->].
      * destruct T5 as [T5|((s2 & R) & T5 & F)]; [left; lia|right]. split; [lia|]. exists s', s2. split; [exact G|]. split; [exact R|].
        intros p Nm. specialize (F p Nm). lia.
      * destruct T5 as [T5|(_ & T5)]; lia.
  - apply inv_gap in T3 as (-> & T3). destruct Hr as [->|(-> & q & ->)]; [|contradiction || (destruct Hf; discriminate)]. destruct Hf as [-> | ->]; [contradiction|unfold K3; lia].
Qed.
Lemma elifs_cost s0 : forall n s r k, (List.length s <= n)%nat -> small3 s0 -> zl s <= zl s0 -> tevt more_elseif_e s r k ->
  match r with
  | COk q => zl q <= zl s /\ (Z.of_nat k <= K3 * (zl s - zl q) + 30 \/ exists X, elif_left X q /\ Z.of_nat k <= K3 * (zl s - zl q) + X)
  | CFail => False
  | CPanic => Z.of_nat k <= K3 * zl s + 930
  end.
Proof.
  induction n as [n IH] using (well_founded_induction lt_wf). intros s r k Hn Sm L T. inversion T; subst.
  - match goal with H : tev _ _ _ _ |- _ => apply (more_elif_cost s0) in H as [H|H]; [| |exact Sm|exact L] end; (split; [lia|]); [left; lia|right].
    eexists. split; [eassumption|lia].
  - match goal with H : tev _ _ _ _ |- _ => apply (more_elif_cost s0) in H; [exact H|exact Sm|exact L] end.
  - match goal with H : tev _ _ (COk ?z) _, H' : tevt _ ?z _ _ |- _ => apply (more_elif_cost s0) in H as (L1 & B); [|exact Sm|exact L];
      apply (IH (List.length z)) in H'; [rename H' into T'|lia|lia|exact Sm|lia] end.
    unfold K3 in *. destruct r; [|exact T'|lia]. destruct T' as [L' T']. split; [lia|].
    destruct T' as [T'|(X & E & T')]; [left; lia|right; exists X; split; [exact E|lia]].
Qed.
Lemma elif_no_else X s s' s2 : elif_left X s -> can gap_e s s' -> runs else_tokens s' s2 -> False.
Proof.
  intros (_ & s3 & s4 & G2 & R2 & _) G R. rewrite <- (can_fun _ _ _ _ G G2) in R2.
  apply (runs_app [lit "else"; gaps_e; warn_e] [lit "{"]) in R as (p1 & P1 & P2). apply (runs_app [lit "else"; gaps_e; warn_e] [lit "if"; gaps_e; warn_e]) in R2 as (p2 & P3 & P4).
  rewrite <- (runs_fun _ _ _ _ P1 P3) in P4. apply runs1 in P2. apply runs2 in P4 as (p3 & P4 & _).
  assert (St : starts [123]%N p1) by (eapply lit_starts; [|exact P2]; vm). exact (dead_can _ [105]%N 0 _ _ _ St P4 ltac:(vm) ltac:(vm)).
Qed.
Lemma opt_else_cost s0 s r k : small3 s0 -> zl s <= zl s0 -> tev (EOpt else_e) s r k ->
  match r with
  | COk q => zl q <= zl s /\ Z.of_nat k <= K3 * (zl s - zl q) + 40 /\ ((exists X, elif_left X s) -> q = s)
  | CFail => False
  | CPanic => Z.of_nat k <= 40 \/ (Z.of_nat k <= K3 * zl s + 940 /\ ((exists X, elif_left X s) -> False))
  end.
Proof.
  intros Sm L T. apply inv_opt in T as (k0 & -> & T); [|vm].
  assert (E : forall r, tev else_e s r k0 -> match r with
    | COk q => zl q < zl s /\ Z.of_nat k0 <= K3 * (zl s - zl q) - 1900 /\ ((exists X, elif_left X s) -> False)
    | CFail => Z.of_nat k0 <= 30
    | CPanic => Z.of_nat k0 <= 30 \/ (Z.of_nat k0 <= K3 * zl s + 930 /\ ((exists X, elif_left X s) -> False)) end).
  { clear T r. intros r T. apply inv_act in T as (k1 & r' & -> & T & Hr); [|vm]. apply inv_seq in T as (k2 & -> & T); [|vm].
    apply inv_cons in T as [(s' & k3 & k4 & -> & T3 & T4)|(T3 & Hf)].
    - apply inv_gap in T3 as (-> & G & Lg). apply inv_cons in T4 as [(q & k5 & k6 & -> & T5 & T6)|(T5 & Hf)].
      + inversion T6; subst. apply inv_lab in T5 as (k7 & -> & T5); [|vm]. apply (else_cost s0) in T5; [|exact Sm|lia]. unfold K3 in *. destruct T5 as (? & ? & s2 & R).
        assert (F : (exists X, elif_left X s) -> False) by (intros (X & E); eapply elif_no_else; eassumption).
        destruct Hr as [->|(-> & _)]; [split; [lia|]; split; [lia|exact F]|right; split; [lia|exact F]].
      + apply inv_lab in T5 as (k7 & -> & T5); [|vm]. apply (else_cost s0) in T5; [|exact Sm|lia]. unfold K3 in *.
        destruct Hr as [->|(-> & q & ->)]; [|destruct Hf; discriminate]. destruct Hf as [-> | ->]; [lia|].
        destruct T5 as [T5|(T5 & s2 & R)]; [left; lia|right]. split; [lia|]. intros (X & E); eapply elif_no_else; eassumption.
    - apply inv_gap in T3 as (-> & T3). destruct Hr as [->|(-> & q & ->)]; [|destruct Hf; discriminate]. destruct Hf as [-> | ->]; [contradiction|left; lia]. }
  destruct T as [(T & Hr)|(T & ->)].
  - apply E in T. destruct r as [q| |]; [|congruence|].
    + destruct T as (? & ? & F). split; [lia|]. split; [lia|]. intros X. destruct (F X).
    + destruct T as [T|(T & F)]; [left; lia|right; split; [lia|exact F]].
  - apply E in T. split; [lia|]. split; [lia|]. reflexivity.
Qed.

(** ** Branches *)
Lemma if_starts s s2 : runs if_tokens s s2 -> starts [105]%N s.
Proof. intros R. apply runs2 in R as (s1 & R & _). eapply lit_starts; [|exact R]. vm. Qed.
Lemma elif_starts s s2 : runs elif_tokens s s2 -> starts [101]%N s.
Proof. intros R. apply runs2 in R as (s1 & R & _). eapply lit_starts; [|exact R]. vm. Qed.
Lemma elif_debt X s : elif_left X s -> debt X s.
Proof.
  intros (H & s' & s2 & G & R & F). right. split; [exact H|]. exists s'. split; [exact G|]. split; [eapply elif_starts; exact R|exact F].
Qed.
Definition elifs_lab := ELab "elseIfBlocks" (EStar more_elseif_e).
Definition else_lab := ELab "elseBlock" (EOpt else_e).
Lemma branch_cost s r k : small3 s -> tev (ERef "branch") s r k ->
  match r with
  | COk q => zl q < zl s /\ at_if s /\ exists X, debt X q /\ Z.of_nat k <= K3 * (zl s - zl q) - 1500 + X
  | CFail => Z.of_nat k <= 30 \/ exists s', can gap_e s s' /\ zl s' <= zl s /\ starts [105]%N s' /\ Z.of_nat k <= 600 * zl s + 1000 /\ forall p, named s' p -> Z.of_nat k <= 1200 * (zl s' - zl p)
  | CPanic => Z.of_nat k <= 30 \/ (at_if s /\ Z.of_nat k <= K3 * zl s + 990)
  end.
Proof.
  intros Sm T. apply (inv_ref _ branch_e) in T as (k0 & -> & T); [|vm]. apply inv_act in T as (k1 & r' & -> & T & Hr); [|vm]. apply inv_seq in T as (k2 & -> & T); [|vm].
  apply inv_cons in T as [(s' & k3 & k4 & -> & T3 & T4)|(T3 & Hf)].
  2: { apply inv_gap in T3 as (-> & T3). destruct Hr as [->|(-> & q & ->)]; [|destruct Hf; discriminate]. destruct Hf as [-> | ->]; [contradiction|left; lia]. }
  apply inv_gap in T3 as (-> & G & Lg). apply inv_cons in T4 as [(q & k5 & k6 & -> & T5 & T6)|(T5 & Hf)].
  2: { apply inv_lab in T5 as (k7 & -> & T5); [|vm]. apply (if_cost s) in T5; [|exact Sm|exact Lg]. unfold HB' in T5.
       destruct Hr as [->|(-> & q & ->)]; [|destruct Hf; discriminate]. destruct Hf as [-> | ->].
       - destruct T5 as [T5|((s2 & R) & T5 & F)]; [left; lia|right]. exists s'. split; [exact G|]. split; [exact Lg|]. split; [eapply if_starts; exact R|]. split; [lia|].
         intros p Nm. specialize (F p Nm). lia.
       - destruct T5 as [T5|((s2 & R) & T5)]; [left; lia|right]. split; [|unfold K3 in *; lia]. exists s'. split; [exact G|]. eapply if_starts; exact R. }
  apply inv_lab in T5 as (k7 & -> & T5); [|vm]. apply (if_cost s) in T5; [|exact Sm|exact Lg]. destruct T5 as (L5 & T5 & s2 & R).
  assert (Ai : at_if s) by (exists s'; split; [exact G|eapply if_starts; exact R]).
  apply inv_cons in T6 as [(q1 & k8 & k9 & -> & T8 & T9)|(T8 & Hf)].
  2: { apply inv_lab in T8 as (k10 & -> & T8); [|vm]. apply inv_star in T8 as (k11 & -> & T8); [|vm].
       apply (elifs_cost s (List.length q)) in T8; [|lia|exact Sm|lia].
       destruct Hr as [->|(-> & q0 & ->)]; [|destruct Hf; discriminate]. destruct Hf as [-> | ->]; [contradiction|]. right. split; [exact Ai|unfold K3 in *; lia]. }
  apply inv_lab in T8 as (k10 & -> & T8); [|vm]. apply inv_star in T8 as (k11 & -> & T8); [|vm].
  apply (elifs_cost s (List.length q)) in T8; [|lia|exact Sm|lia]. destruct T8 as [L8 T8].
  apply inv_cons in T9 as [(q2 & k12 & k13 & -> & T12 & T13)|(T12 & Hf)].
  2: { apply inv_lab in T12 as (k14 & -> & T12); [|vm]. apply (opt_else_cost s) in T12; [|exact Sm|lia].
       destruct Hr as [->|(-> & q0 & ->)]; [|destruct Hf; discriminate]. destruct Hf as [-> | ->]; [contradiction|]. right. split; [exact Ai|]. unfold K3 in *.
       destruct T8 as [T8|(X & E & T8)]; [destruct T12 as [T12|(T12 & _)]; lia|].
       destruct T12 as [T12|(_ & F)]; [|destruct F; eauto]. destruct E as (HX & _). lia. }
  inversion T13; subst. apply inv_lab in T12 as (k14 & -> & T12); [|vm]. apply (opt_else_cost s) in T12; [|exact Sm|lia]. destruct T12 as (L12 & T12 & F).
  unfold K3 in *. destruct Hr as [->|(-> & q0 & _)].
  - split; [lia|]. split; [exact Ai|]. destruct T8 as [T8|(X & E & T8)].
    + exists 0. split; [now left|]. lia.
    + assert (q2 = q1) as -> by (apply F; eauto). exists X. split; [now apply elif_debt|]. lia.
  - right. split; [exact Ai|]. destruct T8 as [T8|(X & E & T8)]; [lia|].
    assert (q2 = q1) as -> by (apply F; eauto). destruct E as (HX & _). lia.
Qed.

(** ** Plugins: their head *)
Lemma plugin_named s q : can (ERef "plugin") s q -> exists s' p, can gap_e s s' /\ named s' p /\ zl q <= zl p /\ zl s' <= zl s.
Proof.
  intros C. apply (can_ref _ plugin_e) in C; [|vm]. apply can_act, can_seq in C. apply runs2 in C as (s' & G & R). apply can_lab in G.
  apply runs2 in R as (p0 & N & R). apply can_lab in N.
  apply (runs_app [gaps_e; warn_e; lit "{"] [ELab "attributes" (EOpt attrs_e); ELab "footerComment" gap_e; close "}" (fatal "expect closing curly bracket")]) in R as (p & R1 & R2).
  exists s', p. split; [exact G|]. split; [exists p0; auto|]. apply runs_len in R2; [|vm]. split; [lia|].
  destruct G as (k & G). destruct (ce_short gap_e _ _ _ eq_refl G) as [L _]. lia.
Qed.
Lemma plugin_cost s r k : tev (ERef "plugin") s r k ->
  match r with
  | COk q => zl q < zl s /\ Z.of_nat k <= 100 * (zl s - zl q) /\ exists s' p, can gap_e s s' /\ named s' p /\ zl q <= zl p /\ zl s' <= zl s
  | CFail => Z.of_nat k <= 10
  | CPanic => Z.of_nat k <= 100 * zl s + 10
  end.
Proof.
  intros T. assert (E : sum vtab (ERef "plugin") = Some (SM (-252) (Some 8) 5 None)) by vm.
  pose proof (sum_holds (ERef "plugin") _ _ _ _ eq_refl E T) as [H _]. cbn [ss sf spn] in H. unfold KK in H. destruct r as [q| |]; [|lia|lia].
  split; [lia|]. split; [lia|]. apply plugin_named. destruct (tev_ce _ _ _ _ T) as (k' & C). eexists; exact C.
Qed.

Lemma bop_step s r k : small3 s -> tev (ERef "branchOrPlugin") s r k -> BP 0 s r k.
Proof.
  intros Sm T. apply (inv_ref _ branchOrPlugin_e) in T as (k0 & -> & T); [|vm]. apply inv_choice in T as (k1 & -> & T); [|vm].
  apply inv_alt in T as [(T & Hr)|(k2 & k3 & -> & T2 & T)].
  - apply branch_cost in T; [|exact Sm]. unfold BP. destruct r as [q| |]; [|congruence|].
    + destruct T as (L & A & X & D & T). split; [exact L|]. left. split; [exact A|]. exists X. split; [exact D|lia].
    + destruct T as [T|(A & T)]; [right; lia|left; split; [exact A|lia]].
  - apply branch_cost in T2; [|exact Sm]. apply inv_alt in T as [(T & Hr)|(k4 & k5 & -> & T4 & T)].
    + apply plugin_cost in T. unfold BP. destruct r as [q| |]; [|congruence|].
      * destruct T as (L & T & s' & p & G & Nm & Lq & Ls). split; [exact L|]. right. destruct T2 as [T2|(s2 & G2 & L2 & St & T2 & F)].
        -- split; [lia|]. split; [right; lia|]. exists s', p. auto.
        -- rewrite <- (can_fun _ _ _ _ G G2) in *. specialize (F _ Nm). split; [lia|]. split; [left; exists s'; auto|]. exists s', p. auto.
      * right. destruct T2 as [T2|(s2 & G2 & L2 & St & T2 & F)]; lia.
    + apply plugin_cost in T4. inversion T; subst. destruct T2 as [T2|(s2 & G2 & L2 & St & T2 & F)]; [left; lia|right]. split; [exists s2; auto|lia].
Qed.
Lemma bop_cost s r k : tev (ERef "branchOrPlugin") s r k -> BP 0 s r k.
Proof.
  remember (List.length s) as n eqn:En. assert (Hn : (List.length s <= n)%nat) by lia. clear En. revert s r k Hn.
  induction n as [n IH] using (well_founded_induction lt_wf). intros s r k Hn T. apply bop_step; [|exact T].
  intros s' r' k' L T'. eapply (IH (List.length s')); [lia|lia|exact T'].
Qed.
Lemma small3_all s : small3 s.
Proof. intros s' r k _ T. now apply bop_cost. Qed.

(** ** Sections and files *)
Definition section_bop := EAct (ARet "bop") (ELab "bop" (ERef "branchOrPlugin")).
Lemma section_elem s r k : tev section_bop s r k -> BP 10 s r k.
Proof.
  intros T. apply inv_act in T as (k1 & r' & -> & T & Hr); [|vm]. apply inv_lab in T as (k2 & -> & T); [|vm]. apply bop_cost in T.
  replace (S (S k2)) with (2 + k2)%nat by lia. destruct Hr as [->|(-> & q & ->)]; (eapply BP_up; [|instantiate (1 := 0); lia]); [exact T|].
  eapply BP_panic; [lia|exact T].
Qed.
Definition section_tokens := [ELab "pt" ptype_e; gaps_e; warn_e; lit "{"].
Lemma section_cost s r k : tev (ERef "pluginSection") s r k ->
  match r with
  | COk q => zl q < zl s /\ Z.of_nat k <= K3 * (zl s - zl q) - 500
  | _ => Z.of_nat k <= K3 * zl s + 100
  end.
Proof.
  intros T. apply (inv_ref _ pluginSection_e) in T as (k0 & -> & T); [|vm]. apply inv_act in T as (k1 & r' & -> & T & Hr); [|vm].
  apply inv_seq in T as (k2 & -> & T); [|vm].
  assert (B : match r' with
              | COk q => zl q < zl s /\ Z.of_nat k2 <= K3 * (zl s - zl q) - 510
              | _ => Z.of_nat k2 <= K3 * zl s + 90 end).
  { clear Hr.
    destruct (tokens section_tokens [ELab "bops" (EStar section_bop); foot_lab; close "}" (soft "expect closing curly bracket")] _ _ _ ltac:(vm) T) as [(s2 & k3 & R & T1 & ->)|(Hf & Hk & _)].
    2: { change (List.length section_tokens) with 4%nat in Hk. destruct Hf as [-> | ->]; unfold K3; lia. }
    change (List.length section_tokens) with 4%nat. apply (runs_app [ELab "pt" ptype_e; gaps_e; warn_e] [lit "{"]) in R as (s1 & R1 & R2).
    apply runs_lt in R1; [|vm|vm]. apply runs_lt in R2; [|vm|vm].
    apply inv_cons in T1 as [(q & k4 & k5 & -> & T4 & T5)|(T4 & Hf)].
    - apply inv_lab in T4 as (k6 & -> & T4); [|vm]. apply inv_star in T4 as (k7 & -> & T4); [|vm].
      apply (bops_cost section_bop 10 (List.length s2)) with (n := List.length s2) (X := 0) in T4; [|lia|intros; now apply section_elem|lia|lia|now left].
      destruct T4 as [Lq T4].
      destruct (tokens_all [foot_lab; close "}" (soft "expect closing curly bracket")] _ _ _ ltac:(vm) T5) as [(p & -> & R & ->)|(Hf & Hk & _)].
      + pose proof R as R'. apply runs_len in R'; [|vm]. match goal with |- context [List.length ?l] => match l with [foot_lab; _] => change (List.length l) with 2%nat end end.
        destruct T4 as [T4|(Sk & _)]; [split; unfold K3 in *; lia|]. exfalso.
        destruct Sk as (q1 & G & St). apply runs2 in R as (q2 & G2 & R). apply can_lab in G2. rewrite <- (can_fun _ _ _ _ G G2) in R. apply runs1 in R.
        exact (dead_can _ [125]%N 0 _ _ _ St R ltac:(vm) ltac:(vm)).
      + assert (Hk2 : (k5 <= 2)%nat) by exact Hk. unfold K3 in *. destruct T4 as [T4|(_ & T4)], Hf as [-> | ->]; lia.
    - apply inv_lab in T4 as (k6 & -> & T4); [|vm]. apply inv_star in T4 as (k7 & -> & T4); [|vm].
      apply (bops_cost section_bop 10 (List.length s2)) with (n := List.length s2) (X := 0) in T4; [|lia|intros; now apply section_elem|lia|lia|now left].
      unfold K3 in *. destruct Hf as [-> | ->]; [contradiction|lia]. }
  unfold K3 in *. destruct Hr as [->|(-> & q & ->)]; [destruct r'; lia|lia].
Qed.
Lemma next_section_cost s r k : tev next_section_e s r k ->
  match r with
  | COk q => zl q < zl s /\ Z.of_nat k <= K3 * (zl s - zl q)
  | _ => Z.of_nat k <= K3 * zl s + 110
  end.
Proof.
  intros T. apply inv_act in T as (k1 & r' & -> & T & Hr); [|vm]. apply inv_seq in T as (k2 & -> & T); [|vm]. unfold K3 in *.
  apply inv_cons in T as [(s' & k3 & k4 & -> & T3 & T4)|(T3 & Hf)].
  - apply inv_gap in T3 as (-> & G & Lg). apply inv_cons in T4 as [(q & k5 & k6 & -> & T5 & T6)|(T5 & Hf)];
      (apply inv_lab in T5 as (k7 & -> & T5); [|vm]); apply section_cost in T5; unfold K3 in *.
    + inversion T6; subst. destruct Hr as [->|(-> & _)]; [split; lia|lia].
    + destruct Hr as [->|(-> & q & ->)]; [|destruct Hf; discriminate]. destruct Hf as [-> | ->]; lia.
  - apply inv_gap in T3 as (-> & T3). destruct Hr as [->|(-> & q & ->)]; [|destruct Hf; discriminate]. destruct Hf as [-> | ->]; lia.
Qed.
Lemma sections_cost : forall n s r k, (List.length s <= n)%nat -> tevt next_section_e s r k ->
  match r with COk q => zl q <= zl s | _ => True end /\ Z.of_nat k <= K3 * zl s + 110.
Proof.
  induction n as [n IH] using (well_founded_induction lt_wf). intros s r k Hn T. inversion T; subst.
  - match goal with H : tev _ _ _ _ |- _ => apply next_section_cost in H end. lia.
  - match goal with H : tev _ _ _ _ |- _ => apply next_section_cost in H end. split; [exact I|lia].
  - match goal with H : tev _ _ (COk ?z) _, H' : tevt _ ?z _ _ |- _ => apply next_section_cost in H as (L1 & B);
      apply (IH (List.length z)) in H'; [destruct H' as [L2 H']|lia|lia] end.
    unfold K3 in *. split; [destruct r; [lia|exact I|exact I]|lia].
Qed.
