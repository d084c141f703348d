(** C60: the options Debug, Statistics, GlobalStore and InitState do not change what Parse
    returns; C61: what Statistics counts. *)
From Coq Require Import List NArith Bool String Arith Lia.
From Verif Require Import Bytes Utf8 F64 Ast Peg Actions Engine Parser GrammarGen ChoiceGen QuoteFacts SimpleFacts PosFacts Run EngineFacts
  Termination RunInv Sim HistFacts ParseFacts LimitFacts Memo MemoFacts Stats StatsFacts.
Import ListNotations.

(** StatsFacts.v: [plain x] are the options of Parser.v an option stands for: itself; for
    GlobalStore with one of the two keys the package uses, IgnoreComments or
    ExceptionalCommentsWarning with the value (false if it is no bool); nothing for every
    other GlobalStore, and for Debug, Statistics and InitState.  [the_stats xs]: the Stats
    of the last Statistics option (before the parse; [new_stats] if there is none);
    [the_label xs]: its label for choices that do not match. *)
Definition no_nil (xs : list xopt) : Prop := forall nm, ~ In (XStatistics None nm) xs.
Definition limit (xs : list xopt) : N := k_max (config_of (flat_map plain xs)).

(** ** C60 *)
(** With statistics that start at zero (or without a limit on expressions) *)
Theorem C60_result : forall xs ff data, no_nil xs -> limit xs = 0%N \/ st_cnt (the_stats xs) = 0%N ->
  exists s, xparse xs ff data = Some (parse (flat_map plain xs) ff data, s).
Proof.
  intros xs ff data N H. destruct (xparse_value xs ff data N) as (r & s & E & A & B & _). fold (limit xs) in A, B. exists s. rewrite E. f_equal. f_equal.
  destruct (N.eq_dec (limit xs) 0) as [Z|Z]; [now apply A|]. destruct H as [H|H]; [lia|]. rewrite B by lia. rewrite H, N.sub_0_r.
  unfold parse. f_equal. rewrite with_limit_cfg. unfold limit. now destruct (config_of (flat_map plain xs)).
Qed.
Print Assumptions C60_result.
(** Statistics with a nil pointer: Parse panics, whatever Recover says *)
Theorem C60_nil : forall xs ff data nm, In (XStatistics None nm) xs -> xparse xs ff data = None.
Proof. intros xs ff data nm H. unfold xparse. now rewrite (set_none _ _ H). Qed.
Print Assumptions C60_nil.
(** the two keys are the two options *)
Theorem C60_global_store : forall xs ys v ff data,
  xparse (xs ++ XGlobalStore ignore_key (Some (GBool v)) :: ys) ff data = xparse (xs ++ XOption (OptIgnoreComments v) :: ys) ff data /\
  xparse (xs ++ XGlobalStore warning_key (Some (GBool v)) :: ys) ff data = xparse (xs ++ XOption (OptExceptionalCommentsWarning v) :: ys) ff data.
Proof.
  intros xs ys v ff data. unfold xparse.
  assert (K : forall zs x y k, (forall k, option_map fst (apply_xopt x k) = option_map fst (apply_xopt y k)) ->
    set_options (zs ++ x :: ys) k = set_options (zs ++ y :: ys) k).
  { induction zs as [|z zs IH]; intros x y k H; cbn [app set_options].
    - specialize (H k). destruct (apply_xopt x k) as [[k1 o1]|], (apply_xopt y k) as [[k2 o2]|]; cbn in H; congruence.
    - destruct (apply_xopt z k) as [[k1 o1]|]; [now apply IH|reflexivity]. }
  split.
  - rewrite (K xs (XGlobalStore ignore_key (Some (GBool v))) (XOption (OptIgnoreComments v)) xdefault); reflexivity.
  - rewrite (K xs (XGlobalStore warning_key (Some (GBool v))) (XOption (OptExceptionalCommentsWarning v)) xdefault); reflexivity.
Qed.
Print Assumptions C60_global_store.
(** Every option returns an option that undoes it: applied to the configured parser, it gives a parser that does
    what the first one did, also with respect to the Stats. *)
Lemma reaches_entry xs k : set_options xs xdefault = Some k -> x_entry k <> ""%string.
Proof.
  assert (G : forall xs k0, x_entry k0 <> ""%string -> set_options xs k0 = Some k -> x_entry k <> ""%string).
  { induction xs0 as [|x xs0 IH]; intros k0 H E; cbn [set_options] in E; [congruence|].
    destruct (apply_xopt x k0) as [[k1 y]|] eqn:A; [|discriminate]. apply (IH k1); [|exact E]. clear IH E.
    destruct x as [[]| [] | | |]; cbn [apply_xopt] in A; injection A as <- _ || discriminate A; cbn [x_entry]; try exact H.
    destruct (String.eqb name "") eqn:Q; [discriminate|]. now apply String.eqb_neq. }
  apply G. discriminate.
Qed.
Theorem C60_undo : forall xs x k k' y, set_options xs xdefault = Some k -> apply_xopt x k = Some (k', y) ->
  exists k'' z, apply_xopt y k' = Some (k'', z) /\ forall n ff data, xparse_with n k'' ff data = xparse_with n k ff data.
Proof.
  intros xs x k k' y R A. apply reaches_entry in R.
  assert (S : forall k1 k2, x_max k1 = x_max k2 -> x_entry k1 = x_entry k2 -> x_invalid k1 = x_invalid k2 -> x_recover k1 = x_recover k2 ->
    is_true (x_global k1 ignore_key) = is_true (x_global k2 ignore_key) -> is_true (x_global k1 warning_key) = is_true (x_global k2 warning_key) ->
    x_state k1 warning_key = x_state k2 warning_key -> x_stats k1 = x_stats k2 -> x_no_match k1 = x_no_match k2 ->
    forall n ff data, xparse_with n k1 ff data = xparse_with n k2 ff data).
  { intros k1 k2 E1 E2 E3 E4 E5 E6 E7 E8 E9 n ff data. unfold xparse_with, xinit_st, xsettings. now rewrite E1, E2, E3, E4, E5, E6, E7, E8, E9. }
  assert (P : forall key v m q, put key (m key) (put key v m) q = m q).
  { intros key v m q. unfold put. destruct (String.eqb q key) eqn:Q; [apply String.eqb_eq in Q; now subst|reflexivity]. }
  destruct x as [[]| [] | | |]; cbn [apply_xopt] in A; injection A as <- <- || discriminate A; cbn [apply_xopt x_max x_entry x_invalid x_recover x_global x_state x_stats x_no_match x_debug];
    (eexists _, _; split; [reflexivity|]); apply S; cbn [x_max x_entry x_invalid x_recover x_global x_state x_stats x_no_match x_debug]; try reflexivity; try (now rewrite P).
  destruct (String.eqb (x_entry k) "") eqn:Q; [apply String.eqb_eq in Q; contradiction|reflexivity].
Qed.
Print Assumptions C60_undo.
Example C60_case_undo : exists k y k'' z, apply_xopt (XGlobalStore warning_key None) xdefault = Some (k, y) /\ apply_xopt y k = Some (k'', z) /\
  y = XGlobalStore warning_key None /\ snd (match apply_xopt (XStatistics (Some (Stats 5 no_counts)) (b "none")) k'' with Some p => p | None => (k, y) end) = XStatistics (Some new_stats) [].
Proof. eexists _, _, _, _. split; [reflexivity|]. split; [reflexivity|]. split; reflexivity. Qed.
Definition warned_text : bytes := b "input # x" ++ [NL] ++ b "{ }".
Example C60_case : exists s,
  xparse [XDebug true; XInitState "x" (Some GOther); XInitState warning_key (Some GOther); XGlobalStore "y" (Some (GBool true));
          XGlobalStore warning_key (Some (GBool true)); XStatistics (Some new_stats) (b "none")] [] warned_text =
  Some (parse [OptExceptionalCommentsWarning true] [] warned_text, s).
Proof.
  apply C60_result; [|left; reflexivity]. intros nm I. cbn in I. repeat destruct I as [I|I]; try discriminate; destruct I.
Qed.
(** where both matter: the option changes the result *)
Example C60_case_warning : fst (parse [OptExceptionalCommentsWarning true] [] warned_text) <> fst (parse [] [] warned_text).
Proof. vm_compute. discriminate. Qed.

(** ** C61 *)
(** The counter ExprCnt after the parse.  [expressions p ff data] (LimitFacts.v) is the
    number of expressions an unlimited parse from zero evaluates; by C15 it is the
    least limit that does not cut the parse short. *)
Theorem C61_count : forall xs ff data, no_nil xs ->
  let n := st_cnt (the_stats xs) in
  let total := expressions (flat_map plain xs) ff data in
  exists r s, xparse xs ff data = Some (r, s) /\
    st_cnt s = (if limit xs =? 0 then n + total else N.min (n + total) (N.max (limit xs) n + 1))%N.
Proof. intros xs ff data N n t. destruct (xparse_value xs ff data N) as (r & s & E & _ & _ & _ & C & _). eauto. Qed.
Print Assumptions C61_count.
(** Statistics that do not start at zero use up a limit on expressions: with [n] counted
    before, the limit is [limit - n]; if nothing is left, every parse is refused at the
    beginning of the text, and the record of failures and the other counters stay as they were. *)
Theorem C61_limit : forall xs ff data, no_nil xs ->
  let n := st_cnt (the_stats xs) in
  let p := flat_map plain xs in
  exists r s, xparse xs ff data = Some (r, s) /\
    ((n < limit xs)%N -> r = parse (with_limit (limit xs - n) p) ff data) /\
    ((0 < limit xs <= n)%N -> forall e, find_rule (k_entry (config_of p)) gen_grammar = Some e ->
      exists errs, r = (if k_recover (config_of p)
                        then Returned VNil (errs ++ [PError (pt_pos (start_pt data)) (Some (k_entry (config_of p))) max_expr_msg])
                        else Panicked max_expr_msg, ff) /\ st_alt s = st_alt (the_stats xs)).
Proof.
  intros xs ff data N n p. destruct (xparse_value xs ff data N) as (r & s & E & _ & A & B & _). fold p n in A, B. exists r, s. split; [exact E|].
  split; [exact A|]. intros L e F. destruct (B L) as [B1 B2]. unfold refused in B1. rewrite F in B1. destruct B1 as [errs B1]. eauto.
Qed.
Print Assumptions C61_limit.

(** Parses add to what the Stats hold already. *)
Theorem C61_additive : forall xs s nm ff data, no_nil xs -> limit xs = 0%N ->
  exists r s1 s0,
    xparse (xs ++ [XStatistics (Some s) nm]) ff data = Some (r, s1) /\
    xparse (xs ++ [XStatistics (Some new_stats) nm]) ff data = Some (r, s0) /\
    st_cnt s1 = (st_cnt s + st_cnt s0)%N /\
    forall key a, st_alt s1 key a = (st_alt s key a + st_alt s0 key a)%N.
Proof.
  intros xs s nm ff data N L.
  assert (NN : forall t, no_nil (xs ++ [XStatistics (Some t) nm])).
  { intros t m I. apply in_app_or in I as [I|I]; [now apply N in I|]. destruct I as [I|[]]. discriminate. }
  assert (Ep : forall t, flat_map plain (xs ++ [XStatistics (Some t) nm]) = flat_map plain xs) by (intros t; rewrite flat_map_app; apply app_nil_r).
  assert (Es : forall t, the_stats (xs ++ [XStatistics (Some t) nm]) = t) by (intros t; unfold the_stats; now rewrite fold_left_app).
  assert (El : forall t, the_label (xs ++ [XStatistics (Some t) nm]) = nm) by (intros t; unfold the_label; now rewrite fold_left_app).
  destruct (xparse_value _ ff data (NN s)) as (r1 & s1 & E1 & A1 & _ & _ & C1 & D1).
  destruct (xparse_value _ ff data (NN new_stats)) as (r0 & s0 & E0 & A0 & _ & _ & C0 & D0).
  rewrite Ep, Es, ?El in *. unfold limit in L. rewrite L in *. cbn [N.eqb] in C1, C0.
  rewrite A1 in E1 by reflexivity. rewrite A0 in E0 by reflexivity. eexists _, s1, s0. split; [exact E1|]. split; [exact E0|].
  split; [cbn [st_cnt new_stats] in C0; lia|]. intros key a.
  destruct (find_rule (k_entry (config_of (flat_map plain xs))) gen_grammar) as [e|] eqn:F.
  - rewrite (D1 (or_introl eq_refl) e eq_refl), (D0 (or_introl eq_refl) e eq_refl). cbn [st_alt new_stats]. unfold no_counts at 2.
    rewrite !N.sub_0_l. reflexivity.
  - clear D1 D0 C1 C0 A1 A0. unfold xparse in E1, E0.
    destruct (set_options (xs ++ [XStatistics (Some s) nm]) xdefault) as [k1|] eqn:K1; [|discriminate]. destruct (set_options (xs ++ [XStatistics (Some new_stats) nm]) xdefault) as [k0|] eqn:K0; [|discriminate].
    apply cfg_plain in K1 as (P1 & P2 & _), K0 as (Q1 & Q2 & _). rewrite Ep, Es in *. rewrite xparse_run in E1, E0.
    replace (x_entry k1) with (k_entry (cfg_of k1)) in E1 by reflexivity. replace (x_entry k0) with (k_entry (cfg_of k0)) in E0 by reflexivity.
    rewrite P1, F in E1. rewrite Q1, F in E0. assert (X1 : s1 = x_stats k1) by congruence. assert (X0 : s0 = x_stats k0) by congruence. rewrite X1, X0, P2, Q2. cbn. unfold no_counts. lia.
Qed.
Print Assumptions C61_additive.

(** the run behind a parse *)
Lemma xparse_inv xs ff data r ff' s : xparse xs ff data = Some (r, ff', s) ->
  let p := config_of (flat_map plain xs) in
  (find_rule (k_entry p) gen_grammar = None /\ s = the_stats xs) \/
  exists k e, find_rule (k_entry p) gen_grammar = Some e /\ cfg_of k = p /\ x_stats k = the_stats xs /\ x_no_match k = the_label xs /\
    fst (run_of k ff data e) <> OFuel /\
    (r, ff') = finish p (fst (run_of k ff data e)) ff /\ st_cnt s = out_cnt (fst (run_of k ff data e)) /\ st_alt s = snd (run_of k ff data e).
Proof.
  intros E p. unfold xparse in E. destruct (set_options xs xdefault) as [k|] eqn:K; [|discriminate]. apply cfg_plain in K as (P1 & P2 & P3). fold p in P1.
  rewrite xparse_run in E. replace (x_entry k) with (k_entry p) in E by (rewrite <- P1; reflexivity).
  destruct (find_rule (k_entry p) gen_grammar) as [e|] eqn:F.
  - right. exists k, e. split; [reflexivity|]. split; [exact P1|]. split; [exact P2|]. split; [exact P3|].
    assert (NF : fst (run_of k ff data e) <> OFuel).
    { unfold run_of. rewrite ceval_same. apply (gen_rule_fuel _ data); [rewrite <- F, <- P1; reflexivity| |]; change (s_pt (xinit_st k ff data)) with (s_pt (init_st (xsettings k) ff data)); rewrite init_st_pt; [constructor|].
      rewrite start_rest. reflexivity. }
    split; [exact NF|]. cbv zeta in E. rewrite P1 in E.
    assert (E1 : finish p (fst (run_of k ff data e)) ff = (r, ff')) by congruence. assert (E2 : s = Stats (out_count (st_cnt (x_stats k)) (fst (run_of k ff data e))) (snd (run_of k ff data e))) by congruence.
    split; [now symmetry|]. rewrite E2. cbn [st_cnt st_alt]. split; [|reflexivity]. destruct (fst (run_of k ff data e)); [reflexivity..|now destruct NF].
  - left. split; [reflexivity|]. congruence.
Qed.

(** Only counters of the choices of the grammar change, and they only grow: the key is the
    rule that is parsed and the place of the choice in the grammar file, the alternative its
    number, counted from 1, or the label for choices that do not match.
    [choices_of (all_nodes gen_grammar)] (StatsFacts.v): the names of the choices and how
    many alternatives each has. *)
Theorem C61_keys : forall xs ff data r ff' s, xparse xs ff data = Some (r, ff', s) ->
  forall key a, st_alt s key a <> st_alt (the_stats xs) key a ->
  (st_alt (the_stats xs) key a < st_alt s key a)%N /\
  exists len, In (key, len) (choices_of (all_nodes gen_grammar)) /\ (a = the_label xs \/ exists i, 1 <= i <= len /\ a = itoa i).
Proof.
  intros xs ff data r ff' s E key a D. apply xparse_inv in E as [(_ & E)|(k & e & F & P1 & P2 & P3 & NF & _ & _ & E)]; [rewrite E in D; now destruct D|]. rewrite E in *. clear E.
  unfold run_of in *. rewrite <- P2 in *. rewrite <- P3. replace (k_entry (config_of (flat_map plain xs))) with (x_entry k) in F by (rewrite <- P1; reflexivity).
  destruct (ceval_keys (xsettings k) (x_no_match k) (parse_fuel (List.length data)) (x_entry k) [] e [] (xinit_st k ff data) (st_alt (x_stats k))) as [Q|Q].
  - exists e. split; [exact F|apply incl_refl].
  - destruct (NF Q).
  - exact (Q key a D).
Qed.
Print Assumptions C61_keys.
(** the place of every choice is known *)
Theorem C61_keys_known : forall rule path es, In ((rule, Some path), EChoice es) (all_nodes gen_grammar) ->
  exists line col, 0 < line /\ choice_ident rule path = b rule ++ b " " ++ itoa line ++ b ":" ++ itoa col.
Proof.
  intros rule path es H. pose proof (proj1 (forallb_forall _ _) choices_known _ H) as Q. cbv beta iota in Q.
  exists (fst (find_choice rule path choice_table)), (snd (find_choice rule path choice_table)). split; [|reflexivity].
  apply negb_true_iff, Nat.eqb_neq in Q. lia.
Qed.
Print Assumptions C61_keys_known.

(** Every step of a counter belongs to an evaluated expression: the counters together
    grow by at most the growth of ExprCnt. *)
Theorem C61_total : forall xs ff data r ff' s, xparse xs ff data = Some (r, ff', s) ->
  forall l, NoDup l -> (total l (st_alt s) + st_cnt (the_stats xs) <= total l (st_alt (the_stats xs)) + st_cnt s)%N.
Proof.
  intros xs ff data r ff' s E l D. apply xparse_inv in E as [(_ & ->)|(k & e & F & P1 & P2 & P3 & NF & _ & -> & ->)]; [lia|].
  unfold run_of in *. rewrite <- P2 in *.
  destruct (ceval_total (xsettings k) gen_grammar (x_no_match k) (parse_fuel (List.length data)) (x_entry k) [] e [] (xinit_st k ff data) (st_alt (x_stats k)) l D) as [Q|Q]; [destruct (NF Q)|].
  exact Q.
Qed.
Print Assumptions C61_total.

(** The choice of rule init, between a configuration with sections and a text without. *)
Definition init_choice : bytes := b "init 14:9".
(** the counters of this choice after the parse: one step for [which] *)
Definition stepped (which : option bytes) (s s' : stats) : Prop :=
  forall a, st_alt s' init_choice a = (st_alt s init_choice a + (if (match which with Some x => beqb x a | None => false end : bool) then 1 else 0))%N.
Lemma with_warnings_sections c w : exists c', with_warnings (VConfig c) w = VConfig c' /\ sections c' = sections c.
Proof. eexists. split; reflexivity. Qed.
Theorem C61_outcome : forall xs ff data r ff' s, k_entry (config_of (flat_map plain xs)) = "init"%string ->
  xparse xs ff data = Some (r, ff', s) ->
  match r with
  | Returned (VConfig c) [] => stepped (Some (if (match sections c with [] => true | _ => false end : bool) then b "2" else b "1")) (the_stats xs) s
  | Returned (VConfig c) _ => stepped (Some (b "1")) (the_stats xs) s \/ stepped (Some (b "2")) (the_stats xs) s
  | Returned _ _ => stepped (Some (the_label xs)) (the_stats xs) s \/ k_recover (config_of (flat_map plain xs)) = true /\ stepped None (the_stats xs) s
  | Panicked _ => stepped None (the_stats xs) s
  | Diverged => False
  end.
Proof.
  intros xs ff data r ff' s He E. apply xparse_inv in E as [(F & _)|(k & e & F & P1 & P2 & P3 & NF & R & _ & A)].
  { rewrite He in F. discriminate F. }
  rewrite He in F. assert (e = gen_init) by (rewrite find_init in F; congruence). subst e. clear F.
  unfold run_of in *. replace (x_entry k) with "init"%string in * by (rewrite <- He, <- P1; reflexivity).
  pose proof (init_bump (xsettings k) (x_no_match k) (parse_fuel (List.length data)) (xinit_st k ff data) (st_alt (x_stats k))) as B.
  set (x := ceval _ _ _ _ _ _ _ _ _ _) in *. clearbody x.
  assert (T : forall w, bump (st_alt (x_stats k)) w (snd x) -> stepped w (the_stats xs) s) by (intros w H a; rewrite <- P2, A; apply H).
  unfold init_post in B. rewrite P3 in B. destruct (fst x) as [v en s'|en s'|m y s'|]; cbn [finish] in R.
  - destruct B as (j & e & en' & s1 & s2 & v1 & w & n' & J & V & Er & -> & B). apply T in B.
    inversion R; subst r ff'; clear R. rewrite <- Er.
    destruct j as [|[|j]]; [| |now destruct j].
    + destruct (alt1_value _ _ _ _ _ _ _ J V) as (c & -> & S). destruct (with_warnings_sections c w) as (c' & -> & Q). rewrite Q.
      destruct (s_errs s2) as [|e1 l]; [|left; exact B]. specialize (S eq_refl). destruct (sections c); [now destruct S|exact B].
    + destruct (alt2_value _ _ _ _ _ _ _ J V) as (c & -> & S). destruct (with_warnings_sections c w) as (c' & -> & Q). rewrite Q, S.
      destruct (s_errs s2) as [|e1 l]; [exact B|right; exact B].
  - inversion R; subst. left. auto.
  - inversion R; subst. destruct (k_recover _); [right; split; [reflexivity|]|]; auto.
  - now destruct NF.
Qed.
Print Assumptions C61_outcome.

Definition counts (o : option (result * list failure * stats)) (l : list (bytes * bytes)) : option (N * list N) :=
  match o with Some (_, _, s) => Some (st_cnt s, map (fun x => st_alt s (fst x) (snd x)) l) | None => None end.
(** two sections of kind input (alternative 1), one of kind output (3), and at the end no section *)
Example C61_case : counts (xparse [XStatistics (Some new_stats) (b "none")] [] (b "input { stdin {} } output { stdout {} } input { file {} }"))
    [(b "init 14:9", b "1"); (b "init 14:9", b "2"); (b "init 14:9", b "none"); (b "pluginSection 108:5", b "1"); (b "pluginSection 108:5", b "2"); (b "pluginSection 108:5", b "3");
     (b "pluginSection 108:5", b "none"); (b "branchOrPlugin 101:5", b "1"); (b "branchOrPlugin 101:5", b "2"); (b "branchOrPlugin 101:5", b "none")] = Some (1129%N, [1%N; 0%N; 0%N; 2%N; 0%N; 1%N; 1%N; 0%N; 3%N; 3%N]).
Proof. vm_compute. reflexivity. Qed.
Example C61_case_limit : exists s, (* nothing left of the limit *)
  xparse [XOption (OptMaxExpressions 1129); XStatistics (Some (Stats 1129 no_counts)) []] [] (b "input { }") =
  Some (Returned VNil [PError (Pos 1 1 0) (Some "init"%string) max_expr_msg], [], s) /\ st_cnt s = 1130%N.
Proof. eexists. split; [vm_compute; reflexivity|reflexivity]. Qed.
Example C61_case_none : counts (xparse [XStatistics (Some (Stats 5 (fun _ _ => 7%N))) (b "none")] [] (b "  # nothing" ++ [NL]))
  [(b "init 14:9", b "1"); (b "init 14:9", b "2"); (b "init 14:9", b "none")] = Some (123%N, [7%N; 8%N; 7%N]).
Proof. vm_compute. reflexivity. Qed.
Example C61_case_fail : counts (xparse [XStatistics (Some new_stats) (b "none")] [] (b "input"))
  [(b "init 14:9", b "1"); (b "init 14:9", b "2"); (b "init 14:9", b "none")] = Some (67%N, [0%N; 0%N; 1%N]).
Proof. vm_compute. reflexivity. Qed.
