(** C69: Parse without Memoize never backtracks exponentially. *)
From Coq Require Import List NArith ZArith Bool String Arith Lia.
From Verif Require Import Bytes Utf8 F64 Ast Peg Actions Engine Parser GrammarGen QuoteFacts PosFacts Run EngineFacts
  RunInv HistFacts
  Termination LimitFacts MemoFacts Rules Cost CostFacts CostLex CostTok CostAll Stats StatsFacts PropsStats.
Import ListNotations.

(** logstash_config.go:11927-11930: "Memoize ... guarantees linear parsing time even for
    pathological cases"; a PEG parser without it may need exponential time.  The work is
    what MaxExpressions limits and Statistics reports: the number of evaluated
    expressions.  [budget n]: a bound for texts of [n] bytes. *)
Definition budget (n : nat) : N := 1600000 * (N.of_nat n + 1) * (N.of_nat n + 1).

Lemma expressions_bound opts ff data : (expressions opts ff data <= budget (List.length data))%N.
Proof.
  unfold expressions. set (k := config_of (with_limit 0 opts)).
  assert (Hm : o_max (settings_of k) = None) by (unfold k; rewrite with_limit_cfg; reflexivity).
  destruct (find_rule (k_entry k) gen_grammar) as [e|] eqn:F; [|apply N.le_0_l].
  set (s := init_st (settings_of k) ff data).
  assert (Rs : Reach data (s_pt s)) by (subst s; rewrite init_st_pt; constructor).
  assert (Es : pt_rest (s_pt s) = data) by (subst s; now rewrite init_st_pt, start_rest).
  assert (H : eval (settings_of k) gen_grammar (parse_fuel (List.length data)) (k_entry k) e [] s <> OFuel).
  { apply (gen_rule_fuel _ data); auto. rewrite Es. reflexivity. }
  apply eval_ev in H.
  destruct (proj1 (cost_all _ _ data Hm gen_lits_ok) _ _ _ _ _ H (forallb_rule _ _ gen_lits_ok F) Rs) as (c & C & ->).
  rewrite Es in C. apply (entry_cost _ _ _ _ _ F) in C. subst s. rewrite init_cnt. unfold budget.
  revert C. generalize (List.length data). intros n. unfold leaf_cost.
  intros C. apply Nat2Z.inj_le in C. rewrite !Nat2Z.inj_mul, !Nat2Z.inj_add in C. zify. nia.
Qed.

(** Whatever the text and the options, the parser evaluates at most [budget] expressions. *)
Theorem C69_work : forall opts ff data, (expressions opts ff data <= budget (List.length data))%N.
Proof. exact expressions_bound. Qed.
Print Assumptions C69_work.

(** So a limit of [budget] never changes what Parse returns, nor the record of failures. *)
Theorem C69_limit : forall n opts ff data, (budget (List.length data) <= n)%N ->
  parse (opts ++ [OptMaxExpressions n]) ff data = parse (opts ++ [OptMaxExpressions 0]) ff data.
Proof.
  intros n opts ff data H. pose proof (expressions_bound opts ff data) as B.
  apply (parse_limit n opts ff data); [unfold budget in H|]; nia.
Qed.
Print Assumptions C69_limit.

(** ParserStats.ExprCnt (logstash_config.go:12366) grows by at most [budget] in one parse,
    whatever the options. *)
Theorem C69_statistics : forall xs ff data, no_nil xs ->
  exists r s, xparse xs ff data = Some (r, s) /\ (st_cnt s <= st_cnt (the_stats xs) + budget (List.length data) + 1)%N.
Proof.
  intros xs ff data H. destruct (C61_count xs ff data H) as (r & s & E & C). exists r, s. split; [exact E|].
  pose proof (expressions_bound (flat_map plain xs) ff data) as B. rewrite C. destruct (_ =? _)%N; lia.
Qed.
Print Assumptions C69_statistics.

(** The limit is met by a non-trivial text with nested parentheses, arrays, hashes and
    branches; the work is far below the budget, and a limit below the work is reached. *)
Definition nested_text : bytes :=
  b "filter { if ((((([a] == 1))) and !(([b] in [1, [2, [""c""]]])))) { if [x] =~ /y/ { aa { bb => { ""k"" => [ 5, { ""l"" => cc } ] } } } else if ""d"" { } else { ee { } } } }".
Example C69_case :
  (exists v, fst (parse [] [] nested_text) = Returned v []) /\
  expressions [] [] nested_text = 5059%N /\ (5059 <= budget (List.length nested_text))%N /\
  fst (parse ([] ++ [OptMaxExpressions (budget (List.length nested_text))]) [] nested_text) = fst (parse [] [] nested_text) /\
  exists p rule, fst (parse ([] ++ [OptMaxExpressions 5058]) [] nested_text) = Returned VNil [PError p (Some rule) max_expr_msg].
Proof.
  split; [eexists; vm_compute; reflexivity|]. split; [vm_compute; reflexivity|]. split; [vm_compute; discriminate|].
  split; [vm_compute; reflexivity|]. eexists _, _. vm_compute. reflexivity.
Qed.
(** a text that is refused, every bracket left open *)
Example C69_case_open : expressions [] [] (b "filter { if (((((((((((((((([a") = 706%N.
Proof. vm_compute. reflexivity. Qed.

(** The bound is a property of this grammar, not of the parser engine: in a grammar with
    one rule  a <- '(' a ')' 'x' / '(' a ')' / 'a'  each pair of parentheses doubles the
    work. *)
Definition doubling : grammar :=
  [("a", EChoice [ESeq [ELit "" [40]; ERef "a"; ELit "" [41]; ELit "" [120]]; ESeq [ELit "" [40]; ERef "a"; ELit "" [41]]; ELit "" [97]])]%string%N.
Definition pairs (n : nat) : bytes := repeat 40%N n ++ [97%N] ++ repeat 41%N n.
Definition doubling_work (n : nat) : N :=
  out_cnt (eval (Settings false false false None) doubling (100 * n + 100) "a" (ERef "a") [] (init_st (Settings false false false None) [] (pairs n))).
Example C69_case_contrast : map doubling_work [0; 1; 2; 8; 12]%nat = [7; 23; 55; 4087; 65527]%N.
Proof. vm_compute. reflexivity. Qed.
