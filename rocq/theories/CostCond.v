(** The cost in tokens of conditions. *)
From Coq Require Import List NArith ZArith Bool String Arith Lia.
From Verif Require Import Bytes Utf8 F64 Ast Peg Actions Engine Parser GrammarGen QuoteFacts PosFacts Run EngineFacts
  Termination LimitFacts MemoFacts Rules Cost CostFacts CostLex CostTok CostVal CostTools.
Import ListNotations.
Local Open Scope Z_scope.

Ltac vm := vm_compute; reflexivity.
Lemma rules_find n : find_rule n gen_grammar = find_rule n rules.
Proof. now rewrite rules_are_generated. Qed.

(** ** The operators: a first value, an operator, a second value *)
Definition RV (s p : bytes) : Prop := exists k, tev (ERef "rvalue") s (COk p) k.
Lemma RV_fun s p p' : RV s p -> RV s p' -> p = p'.
Proof. intros (k & T) (k' & T'). destruct (tev_alike _ _ _ _ _ _ T T') as [X|[X|X]]; congruence. Qed.
Lemma RV_no s p k : RV s p -> tev (ERef "rvalue") s CFail k -> False.
Proof. intros (k1 & T) T'. destruct (tev_alike _ _ _ _ _ _ T T') as [X|[X|X]]; congruence. Qed.

Definition bin (a : action) (x : string) (ops : list expr) (fin : expr) : expr :=
  EAct a (ESeq (ELab x (ERef "rvalue") :: ops ++ [fin])).
(** the shape of an operator expression *)
Record bin_ok (a : action) (x : string) (ops : list expr) (fin : expr) : Prop := BinOk {
  bo_act : leaf (bin a x ops fin) = false;
  bo_seq : leaf (ESeq (ELab x (ERef "rvalue") :: ops ++ [fin])) = false;
  bo_ops : forallb leaf ops = true;
  bo_lops : forallb lits_ok ops = true;
  bo_len : (List.length ops <= 5)%nat;
  bo_fin : lits_ok fin = true;
  bo_sum : exists F, sum vtab fin = Some F /\ ss F <= 20 /\ (exists f, sf F = Some f /\ f <= 20) /\ spn F <= 20 }.

Definition bin_costs (s : bytes) (r : cres) (k : nat) : Prop :=
  match r with
  | COk q => exists p, RV s p /\ zl q <= zl p /\ zl p <= zl s /\ Z.of_nat k <= KK * (zl s - zl q) + 60
  | CFail => Z.of_nat k <= 60 \/ exists p, RV s p /\ zl p <= zl s /\ Z.of_nat k <= KK * (zl s - zl p) + 60
  | CPanic => Z.of_nat k <= KK * zl s + 60
  end.

Lemma lab_rvalue x s r k : tev (ELab x (ERef "rvalue")) s r k ->
  match r with
  | COk q => RV s q /\ Z.of_nat k <= KK * (zl s - zl q) - 80 /\ zl q <= zl s
  | CFail => (exists k', tev (ERef "rvalue") s CFail k') /\ Z.of_nat k <= 20
  | CPanic => Z.of_nat k <= KK * zl s + 20
  end.
Proof.
  intros T. apply inv_lab in T as (k' & -> & T); [|reflexivity].
  assert (E : sum vtab (ERef "rvalue") = Some (SM (-89) (Some 11) 11 None)) by vm.
  pose proof (sum_holds (ERef "rvalue") _ _ _ _ eq_refl E T) as [H _]. destruct r as [q| |]; cbn [ss sf spn] in H.
  - split; [eexists; exact T|]. lia.
  - split; [eexists; exact T|]. lia.
  - lia.
Qed.

Lemma bin_cost a x ops fin s r k : bin_ok a x ops fin -> tev (bin a x ops fin) s r k -> bin_costs s r k.
Proof.
  intros B T. destruct B as [B1 B2 B3 B3' B4 B5 (F & E & F1 & (f & F2 & F2') & F3)].
  apply inv_act in T as (k1 & r' & -> & T & Hr); [|exact B1].
  assert (G : match r' with
              | COk q => exists p, RV s p /\ zl q <= zl p /\ zl p <= zl s /\ Z.of_nat k1 <= KK * (zl s - zl q) + 50
              | CFail => Z.of_nat k1 <= 50 \/ exists p, RV s p /\ zl p <= zl s /\ Z.of_nat k1 <= KK * (zl s - zl p) + 50
              | CPanic => Z.of_nat k1 <= KK * zl s + 50
              end).
  { clear Hr. apply inv_seq in T as (k2 & -> & T); [|exact B2]. apply inv_cons in T as [(p & k3 & k4 & -> & T1 & T2)|(T1 & Hr)].
    - apply lab_rvalue in T1 as (V & C1 & L1). destruct (tokens _ _ _ _ _ B3 T2) as [(p' & k5 & R & T3 & ->)|(Hr & C2 & _)].
      + apply runs_len in R; [|exact B3']. apply inv_cons in T3 as [(q & k6 & k7 & -> & T4 & T5)|(T4 & Hr)].
        * inversion T5; subst. pose proof (sum_holds _ _ _ _ _ B5 E T4) as [[H1 H2] _].
          exists p. unfold KK in *. repeat split; [exact V|lia|lia|lia].
        * pose proof (sum_holds _ _ _ _ _ B5 E T4) as [H _]. destruct Hr as [-> | ->].
          -- rewrite F2 in H. right. exists p. unfold KK in *. repeat split; [exact V|lia|lia].
          -- unfold KK in *. lia.
      + destruct Hr as [-> | ->].
        * right. exists p. unfold KK in *. repeat split; [exact V|lia|lia].
        * unfold KK in *. lia.
    - apply lab_rvalue in T1. destruct Hr as [-> | ->]; [left; lia|unfold KK in *; lia]. }
  destruct Hr as [->|(-> & q & ->)]; unfold bin_costs.
  - destruct r'; [destruct G as (p & V & ? & ? & ?); exists p; repeat split; [exact V|lia|lia|lia]| |lia].
    destruct G as [G|(p & V & ? & ?)]; [left; lia|right; exists p; repeat split; [exact V|lia|lia]].
  - destruct G as (p & V & ? & ? & ?). unfold KK in *. lia.
Qed.

Definition in_ops := [gaps_e; warn_e; in_op_e; gaps_e; warn_e].
Definition notin_ops := [gaps_e; warn_e; not_in_op_e; gaps_e; warn_e].
Definition cmp_ops := [gaps_e; warn_e; ELab "co" cmpop_e; gaps_e; warn_e].
Definition re_ops := [gaps_e; warn_e; ELab "ro" reop_e; gaps_e; warn_e].
Definition rv_fin := ELab "rv" (ERef "rvalue").
Definition re_fin := ELab "rv" (EChoice [string_e; regexp_e]).
Ltac bin_tac := constructor; [vm|vm|vm|vm|apply Nat.leb_le; vm|vm|eexists; (split; [vm|]); cbn [ss sf spn]; (split; [lia|split; [eexists; split; [reflexivity|lia]|lia]])].
Lemma in_ok : bin_ok (AInExpression "lv" "rv") "lv" in_ops rv_fin. Proof. bin_tac. Qed.
Lemma notin_ok : bin_ok (ANotInExpression "lv" "rv") "lv" notin_ops rv_fin. Proof. bin_tac. Qed.
Lemma cmp_ok : bin_ok (ACompareExpression "lv" "co" "rv") "lv" cmp_ops rv_fin. Proof. bin_tac. Qed.
Lemma re_ok : bin_ok (ARegexpExpression "lv" "ro" "rv") "lv" re_ops re_fin. Proof. bin_tac. Qed.

Definition is_bin (n : string) : Prop := exists a x ops fin, find_rule n gen_grammar = Some (bin a x ops fin) /\ bin_ok a x ops fin.
Lemma is_in : is_bin "inExpression". Proof. exists (AInExpression "lv" "rv"), "lv"%string, in_ops, rv_fin. split; [vm|exact in_ok]. Qed.
Lemma is_notin : is_bin "notInExpression". Proof. exists (ANotInExpression "lv" "rv"), "lv"%string, notin_ops, rv_fin. split; [vm|exact notin_ok]. Qed.
Lemma is_cmp : is_bin "compareExpression". Proof. exists (ACompareExpression "lv" "co" "rv"), "lv"%string, cmp_ops, rv_fin. split; [vm|exact cmp_ok]. Qed.
Lemma is_re : is_bin "regexpExpression". Proof. exists (ARegexpExpression "lv" "ro" "rv"), "lv"%string, re_ops, re_fin. split; [vm|exact re_ok]. Qed.

Lemma bin_ref n a x ops fin s r k : find_rule n gen_grammar = Some (bin a x ops fin) -> bin_ok a x ops fin ->
  tev (ERef n) s r k ->
  match r with
  | COk q => exists p, RV s p /\ zl q <= zl p /\ zl p <= zl s /\ Z.of_nat k <= KK * (zl s - zl q) + 61
  | CFail => Z.of_nat k <= 61 \/ exists p, RV s p /\ zl p <= zl s /\ Z.of_nat k <= KK * (zl s - zl p) + 61
  | CPanic => Z.of_nat k <= KK * zl s + 61
  end.
Proof.
  intros F B T. apply (inv_ref _ _ _ _ _ F) in T as (k' & -> & T). apply bin_cost in T; [|exact B]. unfold bin_costs in T. destruct r.
  - destruct T as (p & V & ? & ? & ?). exists p. repeat split; [exact V|lia|lia|lia].
  - destruct T as [?|(p & V & ? & ?)]; [left; lia|right; exists p; repeat split; [exact V|lia|lia]].
  - lia.
Qed.

(** the alternatives of an expression that start with a value *)
Definition rv_alt := EAct (ARvalue "rv") (ELab "rv" (ERef "rvalue")).
Definition tail_alts := [ERef "inExpression"; ERef "notInExpression"; ERef "compareExpression"; ERef "regexpExpression"; rv_alt].
Lemma rv_alt_cost s r k : tev rv_alt s r k ->
  match r with
  | COk q => RV s q /\ Z.of_nat k <= KK * (zl s - zl q) /\ zl q <= zl s
  | CFail => (exists k', tev (ERef "rvalue") s CFail k') /\ Z.of_nat k <= 30
  | CPanic => Z.of_nat k <= KK * zl s + 30
  end.
Proof.
  intros T. apply inv_act in T as (k1 & r' & -> & T & Hr); [|vm]. apply lab_rvalue in T. destruct Hr as [->|(-> & q & ->)].
  - destruct r'; [destruct T as (V & ? & ?); repeat split; [exact V|lia|lia]|destruct T as (V & ?); split; [exact V|lia]|lia].
  - unfold KK in *. lia.
Qed.

Lemma tail_cost s r k : tevc tail_alts s r k ->
  match r with
  | COk q => Z.of_nat k <= 5 * KK * (zl s - zl q) + 310 /\ zl q <= zl s
  | CFail => Z.of_nat k <= 310
  | CPanic => Z.of_nat k <= 5 * KK * zl s + 310
  end.
Proof.
  (* what the failed alternatives cost so far *)
  set (paid := fun (m : Z) (k : Z) => k <= 61 * m \/ exists p, RV s p /\ zl p <= zl s /\ k <= m * (KK * (zl s - zl p) + 61)).
  assert (Step : forall m k k1, 0 <= m -> paid m k -> (Z.of_nat k1 <= 61 \/ exists p, RV s p /\ zl p <= zl s /\ Z.of_nat k1 <= KK * (zl s - zl p) + 61) -> paid (m + 1) (k + Z.of_nat k1)).
  { intros m k0 k1 Hm [P|(p & V & L & P)] [Q|(p' & V' & L' & Q)].
    - left. lia.
    - right. exists p'. split; [exact V'|]. split; [exact L'|]. rewrite Z.mul_add_distr_r.
      assert (0 <= m * (KK * (zl s - zl p'))) by (unfold KK; apply Z.mul_nonneg_nonneg; lia). lia.
    - right. exists p. split; [exact V|]. split; [exact L|]. rewrite Z.mul_add_distr_r. unfold KK in *. lia.
    - right. exists p. rewrite <- (RV_fun _ _ _ V V') in Q. split; [exact V|]. split; [exact L|]. rewrite Z.mul_add_distr_r. lia. }
  assert (Cap : forall m x, 0 <= m <= 4 -> 0 <= x -> m * (KK * x + 61) <= 400 * x + 244).
  { intros m x Hm Hx. transitivity (4 * (KK * x + 61)); [apply Z.mul_le_mono_nonneg_r; unfold KK; lia|unfold KK; lia]. }
  assert (P0 : paid 0 0) by (left; lia).
  assert (Main : forall m k0 es k, 0 <= m <= 4 -> paid m k0 ->
    (exists n, es = [ERef n] /\ is_bin n) ->
    forall e r, es = [e] -> tev e s r k ->
    match r with
    | COk q => Z.of_nat k + k0 <= 5 * KK * (zl s - zl q) + 310 /\ zl q <= zl s
    | CFail => paid (m + 1) (k0 + Z.of_nat k)
    | CPanic => Z.of_nat k + k0 <= 5 * KK * zl s + 310
    end).
  { intros m k0 es k1 Hm P (n & -> & (a & x & ops & fin & F & B)) e r0 [= <-] T. apply (bin_ref _ _ _ _ _ _ _ _ F B) in T. destruct r0.
    - destruct T as (p & V & ? & ? & ?). split; [|lia]. destruct P as [P|(p' & V' & L' & P)]; [unfold KK in *; lia|].
      rewrite <- (RV_fun _ _ _ V V') in *. pose proof (Cap m (zl s - zl p) ltac:(lia) ltac:(lia)). unfold KK in *. lia.
    - apply Step; [lia|exact P|exact T].
    - destruct P as [P|(p' & V' & L' & P)]; [unfold KK in *; lia|]. pose proof (Cap m (zl s - zl p') ltac:(lia) ltac:(lia)). unfold KK in *. lia. }
  intros T. unfold tail_alts in T.
  assert (Fin : forall k0 k, paid 4 k0 -> tev rv_alt s r k ->
    match r with
    | COk q => Z.of_nat k + k0 <= 5 * KK * (zl s - zl q) + 310 /\ zl q <= zl s
    | CFail => k0 + Z.of_nat k <= 310
    | CPanic => Z.of_nat k + k0 <= 5 * KK * zl s + 310
    end).
  { intros k0 k1 P A. apply rv_alt_cost in A. destruct r as [RVQ| |].
    - destruct A as (V & ? & ?). split; [|lia]. destruct P as [P|(p & V' & L & P)]; [unfold KK in *; lia|].
      rewrite <- (RV_fun _ _ _ V V') in *. pose proof (Cap 4 (zl s - zl RVQ) ltac:(lia) ltac:(lia)). unfold KK in *. lia.
    - destruct A as ((k' & A) & ?). destruct P as [P|(p & V' & L & P)]; [lia|]. destruct (RV_no _ _ _ V' A).
    - destruct P as [P|(p' & V' & L' & P)]; [unfold KK in *; lia|]. pose proof (Cap 4 (zl s - zl p') ltac:(lia) ltac:(lia)). unfold KK in *. lia. }
  apply inv_alt in T as [(T & Hr)|(k1 & k1' & -> & T1 & T)].
  { pose proof (Main 0 0 _ _ ltac:(lia) P0 (ex_intro _ _ (conj eq_refl is_in)) _ _ eq_refl T) as X.
    destruct r; [|congruence|]; clear - X; unfold KK in *; lia. }
  pose proof (Main 0 0 _ _ ltac:(lia) P0 (ex_intro _ _ (conj eq_refl is_in)) _ _ eq_refl T1) as P1. cbn beta iota in P1.
  apply inv_alt in T as [(T & Hr)|(k2 & k2' & -> & T2 & T)].
  { pose proof (Main 1 _ _ _ ltac:(lia) P1 (ex_intro _ _ (conj eq_refl is_notin)) _ _ eq_refl T) as X.
    destruct r; [|congruence|]; clear - X; unfold KK in *; lia. }
  pose proof (Main 1 _ _ _ ltac:(lia) P1 (ex_intro _ _ (conj eq_refl is_notin)) _ _ eq_refl T2) as P2. cbn beta iota in P2.
  apply inv_alt in T as [(T & Hr)|(k3 & k3' & -> & T3 & T)].
  { pose proof (Main 2 _ _ _ ltac:(lia) P2 (ex_intro _ _ (conj eq_refl is_cmp)) _ _ eq_refl T) as X.
    destruct r; [|congruence|]; clear - X; unfold KK in *; lia. }
  pose proof (Main 2 _ _ _ ltac:(lia) P2 (ex_intro _ _ (conj eq_refl is_cmp)) _ _ eq_refl T3) as P3. cbn beta iota in P3.
  apply inv_alt in T as [(T & Hr)|(k4 & k4' & -> & T4 & T)].
  { pose proof (Main 3 _ _ _ ltac:(lia) P3 (ex_intro _ _ (conj eq_refl is_re)) _ _ eq_refl T) as X.
    destruct r; [|congruence|]; clear - X; unfold KK in *; lia. }
  pose proof (Main 3 _ _ _ ltac:(lia) P3 (ex_intro _ _ (conj eq_refl is_re)) _ _ eq_refl T4) as P4. cbn beta iota in P4.
  change (3 + 1) with 4 in P4.
  apply inv_alt in T as [(T & Hr)|(k5 & k5' & -> & T5 & T)].
  - pose proof (Fin _ _ P4 T) as X. destruct r; [|congruence|]; clear - X; unfold KK in *; lia.
  - inversion T; subst. pose proof (Fin _ _ P4 T5) as X. cbn beta iota in X. lia.
Qed.

(** ** Expressions and conditions, together *)
Lemma rv_first s r k : avoid [34; 39; 45; 48; 49; 50; 51; 52; 53; 54; 55; 56; 57; 91; 47]%N s -> tevc tail_alts s r k -> r = CFail.
Proof.
  intros A T. apply (proj1 (proj2 (proj2 tev_cev_all))) in T as (k' & C). apply c_choice in C.
  eapply (look_dead _ 10); [|exact A|exact C]. vm.
Qed.
Definition starts (L : list N) (s : bytes) : Prop := exists c t, s = c :: t /\ In c L.
Lemma starts_avoid L L' s : starts L s -> forallb (fun c => negb (mem c L')) L = true -> avoid L' s.
Proof.
  intros (c & t & -> & I) H. cbn. intros J. rewrite forallb_forall in H. specialize (H _ I). apply mem_in in J. rewrite J in H. discriminate.
Qed.
Lemma dead_at L L' n e s r k : starts L s -> ce e s r k -> forallb (fun c => negb (mem c L')) L = true -> look L' n e = Dead -> r = CFail.
Proof. intros St C H D. eapply look_dead; [exact D|eapply starts_avoid; eassumption|exact C]. Qed.
Ltac dead L n St C := let X := fresh in pose proof (dead_at _ L n _ _ _ _ St C) as X; specialize (X ltac:(vm) ltac:(vm)); discriminate X.
Lemma starts_of L n e s r k : look L n e = Dead -> ce e s r k -> r <> CFail -> starts L s.
Proof. exact (head_of L n e s r k). Qed.
Lemma runs_act_seq a es s q k : ce (EAct a (ESeq es)) s (COk q) k -> runs es s q.
Proof. intros C. inversion C; subst; [discriminate|]. match goal with H : cev _ (ESeq _) _ _ _ |- _ => inversion H; subst; [discriminate|] end. eexists; eassumption. Qed.

Lemma close_ok c m s q k : ce (close c (fatal m)) s (COk q) k -> exists k', ce (lit c) s (COk q) k'.
Proof.
  intros C. inversion C; subst; [discriminate|]. match goal with H : cevc _ _ _ _ _ |- _ => inversion H; subst end; [eexists; eassumption|].
  match goal with H : cevc _ [fatal _] _ _ _ |- _ => inversion H; subst end;
    [|match goal with H : cevc _ [] _ _ _ |- _ => inversion H end].
  match goal with H : cev _ ?e _ (COk _) _ |- _ => inversion H; subst end; discriminate.
Qed.

Definition doomed (q : bytes) : Prop := exists q1, runs [gaps_e; warn_e] q q1 /\ starts [97; 111; 120; 110]%N q1.
Definition EX (s : bytes) (r : cres) (k : nat) : Prop :=
  match r with
  | COk q => Z.of_nat k <= 600 * (zl s - zl q) + 400
  | CFail => Z.of_nat k <= 400 \/ (starts [40; 33]%N s /\ Z.of_nat k <= 600 * zl s + 750)
  | CPanic => Z.of_nat k <= 600 * zl s + 420
  end.
Definition CD (s : bytes) (r : cres) (k : nat) : Prop :=
  match r with
  | COk q => Z.of_nat k <= 600 * (zl s - zl q) + 850 \/ (doomed q /\ Z.of_nat k <= 600 * zl s + 900)
  | CFail => Z.of_nat k <= 410 \/ (starts [40; 33]%N s /\ Z.of_nat k <= 600 * zl s + 760)
  | CPanic => Z.of_nat k <= 600 * zl s + 900
  end.

Definition cond_lab := ELab "cond" (ERef "condition").
Definition small (s : bytes) : Prop := forall s' r k, zl s' < zl s -> tev (ERef "condition") s' r k -> CD s' r k.
Lemma lab_cond s0 s r k : small s0 -> zl s < zl s0 -> tev cond_lab s r k -> exists k', k = S k' /\ CD s r k' /\ tev (ERef "condition") s r k'.
Proof. intros H L T. apply inv_lab in T as (k' & -> & T); [|vm]. exists k'. split; [reflexivity|]. split; [apply H; assumption|exact T]. Qed.
Lemma cond_short s q k : tev (ERef "condition") s (COk q) k -> zl q < zl s.
Proof. intros T. destruct (tev_short (ERef "condition") _ _ _ eq_refl T) as [_ H]. specialize (H eq_refl). lia. Qed.

Lemma paren_cost s r k : small s -> tev paren_e s r k ->
  match r with
  | COk q => Z.of_nat k <= 600 * (zl s - zl q)
  | CFail => Z.of_nat k <= 10 \/ (starts [40]%N s /\ Z.of_nat k <= 600 * zl s + 390)
  | CPanic => Z.of_nat k <= 600 * zl s + 390
  end.
Proof.
  intros Sm T. apply inv_act in T as (k1 & r' & -> & T & Hr); [|vm]. apply inv_seq in T as (k2 & -> & T); [|vm].
  destruct (tokens [lit "("; gaps_e; warn_e] [cond_lab; gaps_e; warn_e; lit ")"] _ _ _ ltac:(vm) T) as [(p & k3 & R & T3 & ->)|(Hf & Hk & _)].
  - assert (Hs : starts [40]%N s). { apply runs_cons in R as (p0 & kk & C & _). eapply (starts_of _ 0); [|exact C|discriminate]. vm. }
    apply runs_lt in R; [|vm|vm]. cbn [List.length Nat.add] in *.
    apply inv_cons in T3 as [(q & k4 & k5 & -> & T4 & T5)|(T4 & Hf)].
    + apply (lab_cond s) in T4 as (k6 & -> & C6 & T6); [|exact Sm|lia].
      apply cond_short in T6.
      destruct (tokens_all [gaps_e; warn_e; lit ")"] _ _ _ ltac:(vm) T5) as [(q' & -> & R' & ->)|(Hf & Hk & _)].
      * pose proof R' as R''. apply runs_lt in R''; [|vm|vm]. destruct C6 as [C6|(D & C6)].
        -- destruct Hr as [->|(-> & q0 & _)]; cbn [List.length]; lia.
        -- exfalso. destruct D as (q1 & D & St). apply (runs_app [gaps_e; warn_e] [lit ")"]) in R' as (q2 & R1 & R2).
           rewrite <- (runs_fun _ _ _ _ D R1) in R2. apply runs_cons in R2 as (? & ? & C & _).
           dead [41]%N 0%nat St C.
      * cbn [List.length] in Hk. assert (Z.of_nat k6 <= 600 * zl p + 900) by (destruct C6 as [C6|(_ & C6)]; lia).
        destruct Hf as [-> | ->], Hr as [->|(-> & q0 & [=])]; [right; split; [exact Hs|lia]|lia].
    + apply (lab_cond s) in T4 as (k6 & -> & C6 & T6); [|exact Sm|lia].
      destruct Hf as [-> | ->], Hr as [->|(-> & q0 & [=])].
      * right. split; [exact Hs|]. destruct C6 as [C6|(_ & C6)]; lia.
      * unfold CD in C6. lia.
  - cbn [List.length] in Hk. destruct Hf as [-> | ->], Hr as [->|(-> & q0 & [=])]; lia.
Qed.

Lemma neg_cost s r k : small s -> tev (ERef "negativeExpression") s r k ->
  match r with
  | COk q => Z.of_nat k <= 600 * (zl s - zl q)
  | CFail => Z.of_nat k <= 12 \/ (starts [33]%N s /\ Z.of_nat k <= 600 * zl s + 390)
  | CPanic => Z.of_nat k <= 600 * zl s + 390
  end.
Proof.
  intros Sm T. apply (inv_ref _ negativeExpression_e) in T as (k0 & -> & T); [|vm]. apply inv_choice in T as (k00 & -> & T); [|vm].
  (* the parenthesis *)
  assert (P : forall k r, tev neg_paren_e s r k ->
    match r with
    | COk q => Z.of_nat k <= 600 * (zl s - zl q) - 10
    | CFail => Z.of_nat k <= 8 \/ (starts [33]%N s /\ Z.of_nat k <= 600 * zl s + 385 /\ exists p, runs [lit "!"; gaps_e; warn_e] s p /\ starts [40]%N p)
    | CPanic => Z.of_nat k <= 600 * zl s + 385
    end).
  { clear T r. intros k r T. apply inv_act in T as (k1 & r' & -> & T & Hr); [|vm]. apply inv_seq in T as (k2 & -> & T); [|vm].
    destruct (tokens [lit "!"; gaps_e; warn_e; lit "("; gaps_e; warn_e] [cond_lab; gaps_e; warn_e; close ")" (fatal "expect closing parenthesis")] _ _ _ ltac:(vm) T)
      as [(p & k3 & R & T3 & ->)|(Hf & Hk & _)].
    - assert (Hs : starts [33]%N s). { apply runs_cons in R as (p0 & kk & C & _). eapply (starts_of _ 0); [|exact C|discriminate]. vm. }
      assert (Hp : exists p, runs [lit "!"; gaps_e; warn_e] s p /\ starts [40]%N p).
      { apply (runs_app [lit "!"; gaps_e; warn_e] [lit "("; gaps_e; warn_e]) in R as (p1 & R1 & R2). exists p1. split; [exact R1|].
        apply runs_cons in R2 as (p0 & kk & C & _). eapply (starts_of _ 0); [|exact C|discriminate]. vm. }
      assert (R1 := R). apply (runs_app [lit "!"; gaps_e; warn_e] [lit "("; gaps_e; warn_e]) in R1 as (p1 & R1 & R2).
      apply runs_lt in R1; [|vm|vm]. apply runs_lt in R2; [|vm|vm]. cbn [List.length Nat.add] in *.
      apply inv_cons in T3 as [(q & k4 & k5 & -> & T4 & T5)|(T4 & Hf)].
      + apply (lab_cond s) in T4 as (k6 & -> & C6 & T6); [|exact Sm|lia]. apply cond_short in T6.
        assert (Cp : Z.of_nat k6 <= 600 * zl p + 900) by (destruct C6 as [C6|(_ & C6)]; lia).
        destruct (tokens_all [gaps_e; warn_e; close ")" (fatal "expect closing parenthesis")] _ _ _ ltac:(vm) T5) as [(q' & -> & R' & ->)|(Hf & Hk & Hx)].
        * pose proof R' as R''. apply runs_len in R''; [|vm]. cbn [List.length].
          destruct Hr as [->|(-> & q0 & _)]; [|lia]. destruct C6 as [C6|(D & C6)]; [lia|].
          exfalso. destruct D as (q1 & D & St). apply (runs_app [gaps_e; warn_e] [close ")" (fatal "expect closing parenthesis")]) in R' as (q2 & R3 & R4).
          rewrite <- (runs_fun _ _ _ _ D R3) in R4. apply runs_cons in R4 as (? & ? & C & _).
          apply close_ok in C as (kk & C). dead [41]%N 0%nat St C.
        * cbn [List.length] in Hk. destruct Hf as [-> | ->], Hr as [->|(-> & q0 & [=])]; [right; split; [exact Hs|]; split; [lia|exact Hp]|lia].
      + apply (lab_cond s) in T4 as (k6 & -> & C6 & T6); [|exact Sm|lia].
        destruct Hf as [-> | ->], Hr as [->|(-> & q0 & [=])].
        * right. split; [exact Hs|]. split; [|exact Hp]. destruct C6 as [C6|(_ & C6)]; lia.
        * unfold CD in C6. lia.
    - cbn [List.length] in Hk. destruct Hf as [-> | ->], Hr as [->|(-> & q0 & [=])]; lia. }
  apply inv_alt in T as [(T & Hr)|(k1 & k2 & -> & T1 & T)].
  - apply P in T. destruct r; [lia|congruence|lia].
  - apply P in T1. apply inv_alt in T as [(T & Hr)|(k3 & k4 & -> & T3 & T)].
    + destruct (inv_leaf neg_sel_e _ _ _ ltac:(vm) T) as (-> & k' & C). destruct r as [q| |]; [|congruence|].
      * pose proof (ce_short neg_sel_e _ _ _ ltac:(vm) C) as [_ Sh]. specialize (Sh ltac:(vm)).
        destruct T1 as [T1|(_ & _ & p & R & St)]; [lia|]. exfalso.
        apply runs_act_seq in C. apply (runs_app [lit "!"; gaps_e; warn_e] [ELab "sel" selector_e]) in C as (p1 & R1 & R2).
        rewrite <- (runs_fun _ _ _ _ R R1) in R2. apply runs_cons in R2 as (? & ? & C & _).
        dead [91]%N 0%nat St C.
      * destruct T1 as [T1|(_ & T1 & _)]; lia.
    + destruct (inv_leaf neg_sel_e _ _ _ ltac:(vm) T3) as (-> & k' & C). inversion T; subst. destruct T1 as [T1|(Hs & T1 & _)]; [left; lia|right; split; [exact Hs|lia]].
Qed.

Lemma expr_cost s r k : small s -> tev (ERef "expression") s r k -> EX s r k.
Proof.
  intros Sm T. assert (Sh := tev_short (ERef "expression") _ _ _ ltac:(vm) T).
  apply (inv_ref _ expression_e) in T as (k0 & -> & T); [|vm]. apply inv_choice in T as (k00 & -> & T); [|vm].
  apply inv_alt in T as [(T & Hr)|(k1 & k2 & -> & T1 & T)].
  { apply paren_cost in T; [|exact Sm]. unfold EX. destruct r; [lia|congruence|lia]. }
  apply paren_cost in T1; [|exact Sm]. apply inv_alt in T as [(T & Hr)|(k3 & k4 & -> & T3 & T)].
  { destruct T1 as [T1|(Hs & T1)].
    - apply neg_cost in T; [|exact Sm]. unfold EX. destruct r; [lia|congruence|lia].
    - exfalso. apply Hr. eapply (look_dead_t [33]%N 1); [| |exact T]; [vm|eapply starts_avoid; [exact Hs|vm]]. }
  apply neg_cost in T3; [|exact Sm].
  assert (G : (Z.of_nat k1 + Z.of_nat k3 <= 22) \/ (starts [40; 33]%N s /\ Z.of_nat k1 + Z.of_nat k3 <= 600 * zl s + 402)).
  { destruct T1 as [T1|((c & t & E & I) & T1)], T3 as [T3|((c' & t' & E' & I') & T3)]; [left; lia| | |].
    - right. split; [exists c', t'; split; [exact E'|right; exact I']|lia].
    - right. split; [exists c, t; split; [exact E|left; destruct I as [I|[]]; exact I]|lia].
    - exfalso. rewrite E in E'. injection E' as <- <-. destruct I as [<-|[]], I' as [I'|[]]. discriminate. }
  destruct G as [G|(Hs & G)].
  - apply tail_cost in T. unfold EX. unfold KK in T. destruct r; [|lia|lia]. cbn in Sh. lia.
  - assert (r = CFail). { eapply rv_first; [|exact T]. eapply starts_avoid; [exact Hs|vm]. } subst r.
    right. split; [exact Hs|]. apply tail_cost in T. lia.
Qed.

Definition more_tokens := [gaps_e; warn_e; ELab "bo" boolop_e; gaps_e; warn_e].
Definition more_lab := ELab "cond" (ERef "expression").
Lemma more_cost s r k : small s -> tev more_expr_e s r k ->
  match r with
  | COk q => Z.of_nat k <= 600 * (zl s - zl q) /\ zl q < zl s
  | CFail => Z.of_nat k <= 420 \/ (doomed s /\ Z.of_nat k <= 600 * zl s + 420)
  | CPanic => Z.of_nat k <= 600 * zl s + 420
  end.
Proof.
  intros Sm T. apply inv_act in T as (k1 & r' & -> & T & Hr); [|vm]. apply inv_seq in T as (k2 & -> & T); [|vm].
  destruct (tokens more_tokens [more_lab] _ _ _ ltac:(vm) T) as [(p & k3 & R & T3 & ->)|(Hf & Hk & _)].
  - assert (D : doomed s).
    { apply (runs_app [gaps_e; warn_e] [ELab "bo" boolop_e; gaps_e; warn_e]) in R as (p1 & R1 & R2). exists p1. split; [exact R1|].
      apply runs_cons in R2 as (p0 & kk & C & _). eapply (starts_of _ 0); [|exact C|discriminate]. vm. }
    apply runs_lt in R; [|vm|vm]. change (List.length more_tokens) with 5%nat.
    assert (Sm' : small p) by (intros s' r0 k0 L; apply Sm; lia).
    apply inv_cons in T3 as [(q & k4 & k5 & -> & T4 & T5)|(T4 & Hf)].
    + inversion T5; subst. apply inv_lab in T4 as (k6 & -> & T4); [|vm].
      destruct (tev_short (ERef "expression") _ _ _ eq_refl T4) as [Sh _]. apply expr_cost in T4; [|exact Sm'].
      unfold EX in T4. destruct Hr as [->|(-> & q0 & [=])]; lia.
    + apply inv_lab in T4 as (k6 & -> & T4); [|vm]. apply expr_cost in T4; [|exact Sm'].
      destruct Hf as [-> | ->], Hr as [->|(-> & q0 & [=])]; unfold EX in T4.
      * right. split; [exact D|]. destruct T4 as [T4|(_ & T4)]; lia.
      * lia.
  - change (List.length more_tokens) with 5%nat in Hk. destruct Hf as [-> | ->], Hr as [->|(-> & q0 & [=])]; lia.
Qed.

Lemma mores_cost : forall n s r k, (List.length s <= n)%nat -> small s -> tevt more_expr_e s r k ->
  match r with
  | COk q => zl q <= zl s /\ (Z.of_nat k <= 600 * (zl s - zl q) + 420 \/ (doomed q /\ Z.of_nat k <= 600 * zl s + 420))
  | CFail => False
  | CPanic => Z.of_nat k <= 600 * zl s + 420
  end.
Proof.
  induction n as [n IH] using (well_founded_induction lt_wf). intros s r k Hn Sm T. inversion T; subst.
  - apply more_cost in H; [|exact Sm]. split; [lia|]. destruct H as [H|(D & H)]; [left; lia|right; split; [exact D|lia]].
  - apply more_cost in H; [|exact Sm]. exact H.
  - apply more_cost in H; [|exact Sm]. destruct H as [H L].
    assert (Sm' : small q) by (intros s' r0 k0' L'; apply Sm; lia).
    apply (IH (List.length q)) in H0; [|lia|lia|exact Sm']. destruct r; [|exact H0|lia].
    destruct H0 as [L0 [H0|(D & H0)]]; (split; [lia|]); [left; lia|right; split; [exact D|lia]].
Qed.

Lemma cond_cost s r k : tev (ERef "condition") s r k -> CD s r k.
Proof.
  remember (List.length s) as n eqn:En. assert (Hn : (List.length s <= n)%nat) by lia. clear En. revert s r k Hn.
  induction n as [n IH] using (well_founded_induction lt_wf). intros s r k Hn T.
  assert (Sm : small s) by (intros s' r0 k0 L T'; eapply (IH (List.length s')); [lia|lia|exact T']).
  apply (inv_ref _ condition_e) in T as (k0 & -> & T); [|vm].
  apply inv_act in T as (k1 & r' & -> & T & Hr); [|vm]. apply inv_seq in T as (k2 & -> & T); [|vm].
  apply inv_cons in T as [(p & k3 & k4 & -> & T3 & T4)|(T3 & Hf)].
  - apply inv_lab in T3 as (k5 & -> & T3); [|vm]. destruct (tev_short (ERef "expression") _ _ _ eq_refl T3) as [Sh _].
    apply expr_cost in T3; [|exact Sm]. unfold EX in T3.
    assert (Sm' : small p) by (intros s' r0 k0' L'; apply Sm; lia).
    apply inv_cons in T4 as [(q & k6 & k7 & -> & T6 & T7)|(T6 & Hf)].
    + inversion T7; subst. apply inv_lab in T6 as (k8 & -> & T6); [|vm]. apply inv_star in T6 as (k9 & -> & T6); [|vm].
      apply (mores_cost (List.length p)) in T6; [|lia|exact Sm']. destruct T6 as [L T6].
      destruct Hr as [->|(-> & q0 & [=])]; unfold CD.
      * destruct T6 as [T6|(D & T6)]; [left; lia|right; split; [exact D|lia]].
      * destruct T6 as [T6|(D & T6)]; lia.
    + apply inv_lab in T6 as (k8 & -> & T6); [|vm]. apply inv_star in T6 as (k9 & -> & T6); [|vm].
      apply (mores_cost (List.length p)) in T6; [|lia|exact Sm']. destruct Hf as [-> | ->]; [contradiction|].
      destruct Hr as [->|(-> & q0 & [=])]. unfold CD. lia.
  - apply inv_lab in T3 as (k5 & -> & T3); [|vm]. apply expr_cost in T3; [|exact Sm].
    destruct Hf as [-> | ->], Hr as [->|(-> & q0 & [=])]; unfold EX in T3; unfold CD.
    + destruct T3 as [T3|(Hs & T3)]; [left; lia|right; split; [exact Hs|lia]].
    + lia.
Qed.
Lemma small_all s : small s.
Proof. intros s' r k _ T. now apply cond_cost. Qed.
Lemma expression_cost s r k : tev (ERef "expression") s r k -> EX s r k.
Proof. apply expr_cost, small_all. Qed.
