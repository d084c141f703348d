(** The cost of every rule, and the number of expressions a parse evaluates. *)
From Coq Require Import List NArith ZArith Bool String Arith Lia.
From Verif Require Import Bytes Utf8 F64 Ast Peg Actions Engine Parser GrammarGen QuoteFacts PosFacts Run EngineFacts
  Termination LimitFacts MemoFacts Rules Cost CostFacts CostLex CostTok CostVal CostTools CostCond CostWord CostBranch.
Import ListNotations.
Local Open Scope Z_scope.

Lemma config_cost s r k : tev (ERef "config") s r k -> Z.of_nat k <= K3 * zl s + 300.
Proof.
  intros T. apply (inv_ref _ config_e) in T as (k0 & -> & T); [|vm]. apply inv_act in T as (k1 & r' & -> & T & _); [|vm].
  apply inv_seq in T as (k2 & -> & T); [|vm]. unfold K3 in *.
  apply inv_cons in T as [(s' & k3 & k4 & -> & T3 & T4)|(T3 & _)]; [|apply inv_gap in T3 as (-> & _); lia].
  apply inv_gap in T3 as (-> & G & Lg).
  apply inv_cons in T4 as [(q & k5 & k6 & -> & T5 & T6)|(T5 & _)]; (apply inv_lab in T5 as (k7 & -> & T5); [|vm]); apply section_cost in T5; unfold K3 in *;
    [|destruct r'; lia].
  destruct T5 as [L5 T5].
  apply inv_cons in T6 as [(q1 & k8 & k9 & -> & T8 & T9)|(T8 & _)]; (apply inv_lab in T8 as (k10 & -> & T8); [|vm]); (apply inv_star in T8 as (k11 & -> & T8); [|vm]);
    apply (sections_cost (List.length q)) in T8; try lia; unfold K3 in *; [|lia].
  assert (B : (k9 <= 2)%nat) by (destruct (tokens_all [foot_lab; eof_e] _ _ _ ltac:(vm) T9) as [(p & _ & _ & ->)|(_ & Hk & _)]; [apply Nat.leb_le; vm|exact Hk]).
  lia.
Qed.
Lemma init_cost s r k : tev (ERef "init") s r k -> Z.of_nat k <= K3 * zl s + 400.
Proof.
  intros T. apply (inv_ref _ init_e) in T as (k0 & -> & T); [|vm]. apply inv_act in T as (k1 & r' & -> & T & _); [|vm].
  apply inv_seq in T as (k2 & -> & T); [|vm].
  destruct (tokens [EStateCode SInitState; EAndCode PInitParser] [ELab "conf" (EChoice
       [EAct (ARet "conf") (ESeq [ELab "conf" (ERef "config"); eof_e]);
        EAct AEmptyConfig (ESeq [gap_e; eof_e])])] _ _ _ ltac:(vm) T) as [(s' & k3 & R & T3 & ->)|(_ & Hk & _)].
  2: { unfold K3. cbn [List.length] in Hk. lia. }
  apply runs_len in R; [|vm].
  assert (B : Z.of_nat k3 <= K3 * zl s' + 350).
  { assert (Bk : forall e s r k, e = ELab "conf" (EChoice
       [EAct (ARet "conf") (ESeq [ELab "conf" (ERef "config"); eof_e]);
        EAct AEmptyConfig (ESeq [gap_e; eof_e])]) -> tev e s r k -> Z.of_nat k <= K3 * zl s + 350).
    { clear. intros e s r k -> T. apply inv_lab in T as (k1 & -> & T); [|vm]. apply inv_choice in T as (k2 & -> & T); [|vm].
      assert (C : forall r k, tev (EAct (ARet "conf") (ESeq [ELab "conf" (ERef "config"); eof_e])) s r k -> Z.of_nat k <= K3 * zl s + 320).
      { clear. intros r k T. apply inv_act in T as (k1 & r' & -> & T & _); [|vm]. apply inv_seq in T as (k2 & -> & T); [|vm].
        apply inv_cons in T as [(q & k3 & k4 & -> & T3 & T4)|(T3 & _)]; (apply inv_lab in T3 as (k5 & -> & T3); [|vm]); apply config_cost in T3; [|lia].
        assert (B : (k4 <= 1)%nat) by (destruct (tokens_all [eof_e] _ _ _ ltac:(vm) T4) as [(p & _ & _ & ->)|(_ & Hk & _)]; [apply Nat.leb_le; vm|exact Hk]). lia. }
      apply inv_alt in T as [(T & _)|(k3 & k4 & -> & T3 & T4)]; [apply C in T; lia|]. apply C in T3.
      apply inv_alt in T4 as [(T & _)|(k5 & k6 & -> & T5 & T6)].
      - destruct (inv_leaf (EAct AEmptyConfig (ESeq [gap_e; eof_e])) _ _ _ ltac:(vm) T) as (-> & _). lia.
      - destruct (inv_leaf (EAct AEmptyConfig (ESeq [gap_e; eof_e])) _ _ _ ltac:(vm) T5) as (-> & _). inversion T6; subst. lia. }
    apply inv_cons in T3 as [(q & k4 & k5 & -> & T4 & T5)|(T4 & _)]; apply (Bk _ _ _ _ eq_refl) in T4; [|lia]. inversion T5; subst. lia. }
  unfold K3 in *. cbn [List.length]. lia.
Qed.

Lemma value_cost n s r k : In n ["value"; "array"; "hash"; "hashentries"; "hashentry"; "plugin"; "attribute"; "rvalue"]%string ->
  tev (ERef n) s r k -> Z.of_nat k <= 100 * zl s + 100.
Proof.
  intros I T.
  assert (E : forallb (fun n => match sum vtab (ERef n) with Some M => le_sm M (SM 100 (Some 100) 100 None) | None => false end)
    ["value"; "array"; "hash"; "hashentries"; "hashentry"; "plugin"; "attribute"; "rvalue"]%string = true) by vm.
  rewrite forallb_forall in E. specialize (E _ I). destruct (sum vtab (ERef n)) as [M|] eqn:Es; [|discriminate].
  pose proof (sum_holds (ERef n) _ _ _ _ eq_refl Es T) as H. apply (le_holds _ _ _ _ _ E) in H. destruct H as [H _]. unfold KK in H.
  destruct r; cbn [ss sf spn] in H; lia.
Qed.
Lemma bin_name_cost n s r k : is_bin n -> tev (ERef n) s r k -> Z.of_nat k <= 100 * zl s + 100.
Proof.
  intros (a & x & ops & fin & F & B) T. apply (bin_ref _ _ _ _ _ _ _ _ F B) in T. unfold KK in T. destruct r.
  - destruct T as (p & _ & ? & ? & ?). lia.
  - destruct T as [T|(p & _ & ? & T)]; lia.
  - lia.
Qed.

Lemma rule_cost n s r k : tev (ERef n) s r k -> find_rule n gen_grammar <> None -> Z.of_nat k <= 3200 * zl s + 3200.
Proof.
  intros T F.
  assert (I : In n ["init"; "config"; "pluginSection"; "branchOrPlugin"; "plugin"; "attribute"; "value"; "array"; "hash"; "hashentries"; "hashentry"; "branch";
    "ifCond"; "elseIf"; "elseCond"; "condition"; "expression"; "negativeExpression"; "inExpression"; "notInExpression"; "rvalue"; "compareExpression"; "regexpExpression"]%string).
  { destruct (find_rule n gen_grammar) as [e|] eqn:E; [|congruence]. rewrite rules_are_generated in E. apply find_rule_in in E.
    apply (in_map fst) in E. exact E. }
  pose proof (small_all s) as Sm. pose proof (small3_all s) as S3.
  repeat (destruct I as [<-|I]; [|]); try destruct I;
    try (apply value_cost in T; [lia|cbn; tauto]).
  - apply init_cost in T. unfold K3 in T. lia.
  - apply config_cost in T. unfold K3 in T. lia.
  - apply section_cost in T. unfold K3 in T. destruct r; lia.
  - apply bop_cost in T. unfold BP, K3 in T. destruct r as [q| |].
    + destruct T as [L [(_ & X & D & T)|(T & _)]]; [|lia]. assert (X <= 600 * zl q + 1000) by (destruct D as [->|(D & _)]; lia). lia.
    + destruct T as [T|(_ & T)]; lia.
    + destruct T as [(_ & T)|T]; lia.
  - apply branch_cost in T; [|exact S3]. unfold K3 in T. destruct r as [q| |].
    + destruct T as (L & _ & X & D & T). assert (X <= 600 * zl q + 1000) by (destruct D as [->|(D & _)]; lia). lia.
    + destruct T as [T|(s' & _ & _ & _ & T & _)]; lia.
    + destruct T as [T|(_ & T)]; lia.
  - apply (if_cost s) in T; [|exact S3|lia]. unfold HB', K3 in T. destruct r as [q| |]; [lia|destruct T as [T|(_ & T & _)]; lia|destruct T as [T|(_ & T)]; lia].
  - apply (elif_cost s) in T; [|exact S3|lia]. unfold HB', K3 in T. destruct r as [q| |]; [lia|destruct T as [T|(_ & T & _)]; lia|destruct T as [T|(_ & T)]; lia].
  - apply (else_cost s) in T; [|exact S3|lia]. unfold K3 in T. destruct r as [q| |]; [lia|lia|destruct T as [T|(T & _)]; lia].
  - apply cond_cost in T. unfold CD in T. destruct r as [q| |]; [destruct T as [T|(_ & T)]; lia|destruct T as [T|(_ & T)]; lia|lia].
  - apply expression_cost in T. unfold EX in T. destruct r as [q| |]; [lia|destruct T as [T|(_ & T)]; lia|lia].
  - apply neg_cost in T; [|exact Sm]. destruct r as [q| |]; [lia|destruct T as [T|(_ & T)]; lia|lia].
  - apply bin_name_cost in T; [lia|exact is_in].
  - apply bin_name_cost in T; [lia|exact is_notin].
  - apply bin_name_cost in T; [lia|exact is_cmp].
  - apply bin_name_cost in T; [lia|exact is_re].
Qed.
Lemma entry_cost n e s r k : find_rule n gen_grammar = Some e -> ce e s r k ->
  (k <= leaf_cost * (1 + List.length s) * (3200 * (List.length s + 1)))%nat.
Proof.
  intros F C. destruct (proj1 (cev_tev_all (List.length s)) _ _ _ _ C (forallb_rule n e gen_lits_ok F) (forallb_rule n e gen_tok F) (le_n _)) as (k' & T & B).
  pose proof (rule_cost n s r (S k') (t_ref _ _ _ _ _ F T) ltac:(congruence)) as B'.
  etransitivity; [exact B|]. apply Nat.mul_le_mono_l. lia.
Qed.
