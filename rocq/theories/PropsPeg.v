(** C73: the package parses as its grammar file says. *)
From Coq Require Import List NArith Bool String Arith Lia.
From Verif Require Import Bytes Utf8 F64 Ast Peg GrammarGen PegFile Actions Engine Parser Run EngineFacts PosFacts Termination HistFacts ParseFacts Utf8Facts Matches RunInv PegSem PegFacts PegSame.
From Verif Require PropsTree InputFacts.
Import ListNotations.

(** ** The two grammars *)
Lemma peg_rules_same y b2 : find_rule y gen_grammar = Some b2 ->
  exists b1, find_rule y peg_grammar = Some b1 /\ inl peg_grammar gen_grammar 40 true false b1 b2 = true.
Proof.
  intros F.
  assert (H : forallb (fun x => match find_rule (fst x) peg_grammar with
    | Some b1 => inl peg_grammar gen_grammar 40 true false b1 (snd x) | None => false end) gen_grammar = true) by (vm_compute; reflexivity).
  pose proof (forallb_rule y b2 H F) as K. cbn [fst snd] in K. destruct (find_rule y peg_grammar) as [b1|]; [|discriminate K].
  exists b1. auto.
Qed.

(** ** Termination of the grammar file *)
Definition peg_nul_table := Eval vm_compute in iter 20 (nul_step peg_grammar) [].
Definition peg_nul (n : string) : bool := tlookup false n peg_nul_table.
Definition peg_rk_table := Eval vm_compute in iter 80 (rk_step peg_nul peg_grammar) [].
Definition peg_rk (n : string) : nat := tlookup 0 n peg_rk_table.
Lemma peg_table_check : table_check peg_grammar peg_nul peg_rk fuel_factor = true.
Proof. vm_compute. reflexivity. Qed.
Lemma peg_lits_ok : grammar_lits_ok peg_grammar = true.
Proof. vm_compute. reflexivity. Qed.
Lemma peg_nul_ok n e : find_rule n peg_grammar = Some e -> peg_nul n = false -> nul peg_nul e = false.
Proof.
  pose proof peg_table_check as H. unfold table_check in H. apply andb_true_iff in H as [H _]. apply andb_true_iff in H as [_ H].
  intros F E. pose proof (forallb_rule n e H F) as K. cbn [fst snd] in K. rewrite E in K. cbn in K. now apply negb_true_iff in K.
Qed.
Lemma peg_rk_ok n e : find_rule n peg_grammar = Some e ->
  ld peg_nul peg_rk e <= peg_rk n /\ wf peg_nul peg_rk fuel_factor e = true /\ peg_rk n < fuel_factor.
Proof.
  pose proof peg_table_check as H. unfold table_check in H. apply andb_true_iff in H as [_ H].
  intros F. pose proof (forallb_rule n e H F) as K. cbn [fst snd] in K.
  apply andb_true_iff in K as [K K3]. apply andb_true_iff in K as [K1 K2]. apply Nat.leb_le in K1. apply Nat.ltb_lt in K3. auto.
Qed.
Lemma peg_rule_fuel o data n rule e en s :
  find_rule rule peg_grammar = Some e -> Reach data (s_pt s) -> S (List.length (pt_rest (s_pt s))) * fuel_factor <= n ->
  eval o peg_grammar n rule e en s <> OFuel.
Proof.
  intros F Hs Hn. destruct (peg_rk_ok _ _ F) as (R1 & R2 & R3).
  apply (fuel_enough o peg_grammar data peg_nul peg_rk fuel_factor peg_lits_ok peg_nul_ok).
  - intros n' e' F'. destruct (peg_rk_ok _ _ F') as (A & B & _). auto.
  - unfold fuel_factor. lia.
  - exact (forallb_rule rule e peg_lits_ok F).
  - exact R2.
  - exact Hs.
  - rewrite Nat.mul_succ_l in Hn. lia.
Qed.

(** ** What is compared *)
(** the errors, without the name of the rule that reported them *)
Definition reports (l : list perror) : list (position * emsg) := map (fun e => (e_pos e, e_msg e)) l.
(** the one error of a text that does not match, when nothing else was reported *)
Definition no_match_at (p : position) (l : list perror) : Prop :=
  exists expected, l = [PError p None (MText (b "no match found, expected: " ++ expected))].
Definition alike (r r' : result) : Prop :=
  match r, r' with
  | Returned v es, Returned v' es' => v = v' /\ (reports es = reports es' \/ exists p, no_match_at p es /\ no_match_at p es')
  | Panicked m, Panicked m' => m = m'
  | _, _ => False
  end.

Lemma anon_reports l l' : map anon l = map anon l' -> reports l = reports l'.
Proof.
  revert l'. induction l as [|e l IH]; intros [|e' l']; cbn [map]; intros H; try discriminate H; [reflexivity|].
  unfold anon in H at 1 3. injection H as H1 H2 H. unfold reports. cbn [map]. rewrite H1, H2. f_equal. now apply IH.
Qed.

(** Parsing with the rules of logstash_config.peg as they are written there and parsing
    with the optimised grammar of logstash_config.go give the same value, the same errors
    at the same positions, the same record of failures, and panic alike, for every text and
    all options but a limit on expressions, and every entry point of the package. *)
Theorem C73_as_the_grammar_file_says : forall opts ff data n,
  k_max (config_of opts) = 0%N -> find_rule (k_entry (config_of opts)) gen_grammar <> None ->
  parse_fuel (List.length data) <= n ->
  let file := parse_with n peg_grammar (config_of opts) ff data in
  let package := parse opts ff data in
  alike (fst file) (fst package) /\ snd file = snd package.
Proof.
  intros opts ff data n M En Hn file package. subst file package. pose proof (parse_run opts ff data) as R.
  set (k := config_of opts) in *. set (o := settings_of k) in *.
  destruct (find_rule (k_entry k) gen_grammar) as [b2|] eqn:F2; [|congruence]. destruct R as (r & V & ->).
  destruct (peg_rules_same _ _ F2) as (b1 & F1 & I).
  assert (No : o_max o = None) by (subst o; unfold settings_of; cbn [o_max]; now rewrite M).
  assert (Hs : Reach data (s_pt (init_st o ff data))) by (rewrite init_st_pt; constructor).
  assert (Nf : eval o peg_grammar n (k_entry k) b1 [] (init_st o ff data) <> OFuel).
  { apply (peg_rule_fuel _ data); auto. rewrite init_st_pt, start_rest. exact Hn. }
  destruct (follows_all o No peg_grammar gen_grammar 40 peg_rules_same n _ _ _ _ Nf 40 true false b2 (k_entry k) (init_st o ff data) I
    (fun _ => eq_refl) (same_refl _)) as (r2 & V2 & Q).
  rewrite (ev_fun _ _ _ _ _ _ _ _ V V2). clear V V2 r. unfold parse_with. fold o. rewrite F1.
  destruct (eval o peg_grammar n (k_entry k) b1 [] (init_st o ff data)) as [x en' s'|en' s'|m x s'|]; destruct r2 as [x2 en2 s2|en2 s2|m2 x2 s2|]; cbn in Q; try contradiction.
  - destruct Q as (Qv & _ & Qs). cbn [finish fst snd alike]. split; [|now apply same_ff]. split; [now apply Qv|]. left. now apply anon_reports, same_errs.
  - destruct Q as (_ & Qs). cbn [finish fst snd alike]. split; [|now apply same_ff]. split; [reflexivity|].
    pose proof (same_errs _ _ Qs) as Qe. destruct (s_errs s') as [|e l], (s_errs s2) as [|e2 l2]; try discriminate Qe.
    + right. exists (s_mfpos s2). rewrite (same_mfpos _ _ Qs). unfold no_match_at, no_match_msg. cbv zeta. split; eexists; reflexivity.
    + left. now apply anon_reports.
  - destruct Q as (<- & Qs). cbn [finish fst snd alike]. split; [|now apply same_ff]. destruct (k_recover k); [|reflexivity]. split; [reflexivity|]. left.
    unfold reports. rewrite !map_app. cbn [map e_pos e_msg]. rewrite (same_pt _ _ Qs). f_equal. apply anon_reports. now apply same_errs.
Qed.
Print Assumptions C73_as_the_grammar_file_says.

(** So a text is accepted by one if and only if it is by the other, with the same tree. *)
Theorem C73_same_language : forall opts ff data n v,
  k_max (config_of opts) = 0%N -> find_rule (k_entry (config_of opts)) gen_grammar <> None ->
  parse_fuel (List.length data) <= n ->
  (fst (parse_with n peg_grammar (config_of opts) ff data) = Returned v [] <-> fst (parse opts ff data) = Returned v []).
Proof.
  intros opts ff data n v M En Hn. pose proof (proj1 (C73_as_the_grammar_file_says opts ff data n M En Hn)) as A.
  destruct (fst (parse_with _ _ _ _ _)) as [x es| |], (fst (parse opts ff data)) as [x' es'| |]; cbn in A; try contradiction;
    try (split; intros H; discriminate H).
  destruct A as [<- [A|(p & (t & ->) & (t' & ->))]].
  - split; intros H; injection H as <- ->; [destruct es' as [|? ?]|destruct es as [|? ?]]; try discriminate A; reflexivity.
  - split; intros H; discriminate H.
Qed.
Print Assumptions C73_same_language.

(** ** The language of the grammar file *)
Section Init.
  Variable g : grammar.
  Variable conf : expr.
  Let start : expr := EAct (ARetConfig "conf") (ESeq [EStateCode SInitState; EAndCode PInitParser; conf]).
  Lemma start_run o s r : o_max o = None -> ev o g "init" start [] s r ->
    exists r1, evs o g "init" (s_pt s) (s_warns s) [conf] [VNil; VNil] [] (started o s) r1 /\ r = act_out o "init" (ARetConfig "conf") (tick s) r1.
  Proof.
    intros M. assert (L : forall s, over_limit o s = false) by (intros s0; unfold over_limit; now rewrite M).
    unfold start. intros H. apply inv_act in H as [[L0 ->]|[_ (r1 & H & ->)]]; [rewrite L in L0; discriminate|].
    apply inv_seq in H as [[L1 ->]|[_ H]]; [rewrite L in L1; discriminate|].
    apply inv_evs_cons in H as (r2 & H2 & H). eapply inv_prim in H2; [|reflexivity]. destruct H2 as [[L2 ->]|[_ ->]]; [rewrite L in L2; discriminate|].
    apply inv_evs_cons in H as (r3 & H3 & H). eapply inv_prim in H3; [|reflexivity]. destruct H3 as [[L3 ->]|[_ ->]]; [rewrite L in L3; discriminate|].
    exists r1. split; [exact H|reflexivity].
  Qed.

  Hypothesis Lg : grammar_lits_ok g = true.
  Hypothesis Lc : lits_ok conf = true.
  Hypothesis Fi : find_rule "init" g = Some start.
  Lemma run_peg k ff data n : k_entry k = "init"%string -> k_max k = 0%N -> k_warn k = false ->
    utf8_text data \/ k_invalid k = true -> eval (settings_of k) g n "init" start [] (init_st (settings_of k) ff data) <> OFuel ->
    exists r, peg (k_ignore k) g start [] (start_pt data) r /\
      match r with
      | POk v _ _ => fst (parse_with n g k ff data) = Returned v []
      | _ => forall v, fst (parse_with n g k ff data) <> Returned v []
      end.
  Proof.
    intros He Hm Hw Hu Nf. unfold parse_with. rewrite He, Fi. set (o := settings_of k) in *.
    apply eval_ev in Nf. revert Nf. generalize (eval o g n "init" start [] (init_st o ff data)). intros r R.
    change (match r with OOk v _ s1 => _ | OFail _ s2 => _ | OPanic m rule s3 => _ | OFuel => _ end) with (finish k r ff).
    assert (Ho : o_max o = None) by (subst o; cbn; now rewrite Hm).
    assert (Henc := enc_ok o data Hu).
    assert (Hi : init_st o ff data = St (start_pt data) zero_pos [] None ff [] (Pos 1 1 0) [] false 0).
    { unfold init_st. apply (check_same o data Henc). constructor. }
    rewrite Hi in R. apply (start_run _ _ _ Ho) in R as (r1 & R & ->).
    set (s0 := started o _) in R.
    assert (E0 : s_pt s0 = start_pt data /\ s_warns s0 = Some [] /\ s_errs s0 = []) by (subst s0; auto).
    clearbody s0. destruct E0 as (E1 & E2 & E3). cbn [s_pt s_warns] in R.
    apply inv_evs_cons in R as (r2 & R & K).
    assert (A : agree (peg (o_ignore o) g conf [] (start_pt data)) s0 r2).
    { rewrite <- E1. apply (proj1 (ev_peg_all o g data Lg Ho Hw Henc) _ _ _ _ _ R).
      - exact Lc.
      - rewrite E1. constructor.
      - exact E2. }
    change (o_ignore o) with (k_ignore k) in A.
    assert (Pre : forall x, pegs (k_ignore k) g [conf] [] (start_pt data) x -> x = PFail \/ x = PAbort ->
      peg (k_ignore k) g start [] (start_pt data) x).
    { intros x Hx Hd. eapply peg_act_no; [|exact Hd]. eapply peg_seq_no; [|exact Hd].
      eapply pegs_later; [apply peg_state| |exact Hd]. eapply pegs_later; [apply peg_init|exact Hx|exact Hd]. }
    destruct r2 as [v2 en2 s2|en2 s2|m2 x2 s2|]; cbn [agree] in A.
    - apply inv_evs_nil in K. subst r1. destruct A as (W & X & [[A1 A2]|[A1 A2]]).
      + unfold act_out. cbn [s_warns set_cur]. rewrite W. cbn [run_action act_ret_config].
        eexists. split.
        * eapply peg_act; [|reflexivity]. apply peg_seq. eapply pegs_cons; [apply peg_state|].
          eapply pegs_cons; [apply peg_init|]. eapply pegs_cons; [exact A2|]. apply pegs_nil.
        * cbn. f_equal. rewrite A1. exact E3.
      + exists PAbort. split; [apply Pre; auto; eapply pegs_no; eauto|].
        intros v. unfold act_out. cbn [run_action]. unfold act_ret_config. cbn. intros E. injection E as _ E. apply A1. unfold PegFacts.same. congruence.
    - subst r1. destruct A as (W & X & A).
      assert (Z : forall v, fst (finish k (act_out o "init" (ARetConfig "conf")
        (tick (St (start_pt data) zero_pos [] None ff [] (Pos 1 1 0) [] false 0)) (OFail en2 (restore (start_pt data) (set_warns None s2)))) ff) <> Returned v []).
      { intros v. cbn [act_out finish fst]. destruct (s_errs (restore (start_pt data) (set_warns None s2))); discriminate. }
      destruct A as [[A1 A2]|[A1 A2]]; [exists PFail|exists PAbort]; (split; [|exact Z]); apply Pre; auto; eapply pegs_no; eauto.
    - subst r1. exists PAbort. split; [apply Pre; auto; eapply pegs_no; eauto|].
      intros v. cbn. destruct (k_recover _); [|discriminate]. intros E. injection E as _ E. destruct (s_errs s2); discriminate.
    - contradiction.
  Qed.
End Init.

(** A text derives a configuration by the textbook meaning ([peg], PegSem.v) of the rules of
    logstash_config.peg. *)
Definition file_derives (ign : bool) (data : bytes) (c : config) : Prop :=
  exists en q, peg ign peg_grammar (ERef "init") [] (start_pt data) (POk (VConfig c) en q).

Theorem C73_file_language : forall opts ff data c,
  k_entry (config_of opts) = "init"%string -> k_max (config_of opts) = 0%N -> k_warn (config_of opts) = false ->
  utf8_text data \/ k_invalid (config_of opts) = true ->
  (exists ff', parse opts ff data = (Returned (VConfig c) [], ff')) <-> file_derives (k_ignore (config_of opts)) data c.
Proof.
  intros opts ff data c He Hm Hw Hu. set (n := parse_fuel (List.length data)).
  assert (En : find_rule (k_entry (config_of opts)) gen_grammar <> None) by (rewrite He; discriminate).
  assert (L : (exists ff', parse opts ff data = (Returned (VConfig c) [], ff')) <-> fst (parse_with n peg_grammar (config_of opts) ff data) = Returned (VConfig c) []).
  { rewrite (C73_same_language opts ff data n (VConfig c) Hm En (Nat.le_refl _)). split.
    - intros (ff' & ->). reflexivity.
    - intros E. exists (snd (parse opts ff data)). now rewrite <- E, <- surjective_pairing. }
  rewrite L. clear L En.
  assert (Fi : exists conf, find_rule "init" peg_grammar = Some (EAct (ARetConfig "conf") (ESeq [EStateCode SInitState; EAndCode PInitParser; conf])) /\ lits_ok conf = true)
    by (eexists; split; [reflexivity|reflexivity]).
  destruct Fi as (conf & Fi & Lc).
  assert (Nf : eval (settings_of (config_of opts)) peg_grammar n "init" (EAct (ARetConfig "conf") (ESeq [EStateCode SInitState; EAndCode PInitParser; conf])) []
    (init_st (settings_of (config_of opts)) ff data) <> OFuel).
  { apply (peg_rule_fuel _ data); [exact Fi|rewrite init_st_pt; constructor|]. rewrite init_st_pt, start_rest. apply Nat.le_refl. }
  destruct (run_peg peg_grammar conf peg_lits_ok Lc Fi (config_of opts) ff data n He Hm Hw Hu Nf) as (r & R & K). split.
  - intros E. rewrite E in K. destruct r as [v en q| |]; [|now elim (K (VConfig c))..]. injection K as <-.
    exists [], q. eapply peg_ref; [exact Fi|exact R].
  - intros (en & q & D). apply (peg_ref_ok _ _ _ _ _ _ _ _ _ Fi) in D as (en1 & D1). now rewrite (peg_fun _ _ _ _ _ _ _ R D1) in K.
Qed.
Print Assumptions C73_file_language.

(** So the rules of the file and the rules of the package have the same textbook meaning. *)
Theorem C73_same_meaning : forall ign data c, file_derives ign data c <-> PropsTree.derives ign data c.
Proof.
  intros ign data c. set (opts := [OptIgnoreComments ign; OptAllowInvalidUTF8 true]).
  transitivity (exists ff', parse opts [] data = (Returned (VConfig c) [], ff')).
  - symmetry. exact (C73_file_language opts [] data c eq_refl eq_refl eq_refl (or_intror eq_refl)).
  - exact (PropsTree.C43_lenient opts [] data c eq_refl eq_refl eq_refl eq_refl).
Qed.
Print Assumptions C73_same_meaning.

(** ** Concrete cases *)
Definition sample : bytes := b "# c
filter { if [a] > 3 and ""x"" in [b] { mutate { add => { aa => ""b"" } tt => [1, 2] } } else { drop {} } } output { stdout {} }".
Definition sample_bad : bytes := b "filter { if [a] @ }".
(** both accept a text with comments, conditions, hashes and arrays ... *)
Example C73_case : (exists c ff', parse [] [] sample = (Returned (VConfig c) [], ff')) /\
  k_max (config_of []) = 0%N /\ find_rule (k_entry (config_of [])) gen_grammar <> None.
Proof.
  split; [|split; [reflexivity|vm_compute; discriminate]].
  destruct (parse [] [] sample) as [r ff'] eqn:E. vm_compute in E. injection E as <- <-. eexists _, _. reflexivity.
Qed.
Example C73_case_bad : exists v es ff', parse [] [] sample_bad = (Returned v es, ff') /\ es <> [].
Proof.
  destruct (parse [] [] sample_bad) as [r ff'] eqn:E. vm_compute in E. injection E as <- <-. eexists _, _, _. split; [reflexivity|discriminate].
Qed.
(** ... and read the same tree, by the theorem *)
Example C73_case_same : forall c ff', parse [] [] sample = (Returned (VConfig c) [], ff') ->
  fst (parse_with (parse_fuel (List.length sample)) peg_grammar (config_of []) [] sample) = Returned (VConfig c) [].
Proof.
  intros c ff' E. destruct C73_case as (_ & M & En). apply (C73_same_language [] [] sample _ _ M En (Nat.le_refl _)). now rewrite E.
Qed.
(** The lists of expected things do differ: the package reads [<] and [>] with one class. *)
Example C73_expected_differs :
  fst (parse_with (parse_fuel (List.length sample_bad)) peg_grammar (config_of []) [] sample_bad) =
    Returned VNil [PError (Pos 1 17 16) None (MText (b "no match found, expected: ""!="", ""!~"", ""#"", ""<"", ""<="", ""=="", ""=~"", "">"", "">="", ""and"", ""in"", ""nand"", ""not "", ""or"", ""xor"", ""{"" or [ \t\r\n]"))] /\
  fst (parse [] [] sample_bad) =
    Returned VNil [PError (Pos 1 17 16) None (MText (b "no match found, expected: ""!="", ""!~"", ""#"", ""<="", ""=="", ""=~"", "">="", ""and"", ""in"", ""nand"", ""not "", ""or"", ""xor"", ""{"", [ \t\r\n] or [<>]"))].
Proof. split; vm_compute; reflexivity. Qed.
(** And a limit on expressions is felt at different places: inlined rules cost nothing. *)
Example C73_limit_differs : let d := b "input { stdin {} }" in let opts := [OptMaxExpressions 300] in
  fst (parse_with (parse_fuel (List.length d)) peg_grammar (config_of opts) [] d) <> fst (parse opts [] d).
Proof. vm_compute. discriminate. Qed.
(** The other entry points: any rule that the package still has. *)
Example C73_entry : let opts := [OptEntrypoint "plugin"%string] in
  k_max (config_of opts) = 0%N /\ find_rule (k_entry (config_of opts)) gen_grammar <> None.
Proof. split; [reflexivity|vm_compute; discriminate]. Qed.
Example C73_case_derives : exists c, file_derives false sample c.
Proof.
  destruct C73_case as ((c & ff' & E) & _ & _). exists c. assert (U : utf8_text sample) by (exact (InputFacts.parse_utf8 [] [] sample c ff' eq_refl eq_refl E)).
  apply (C73_file_language [] [] sample c eq_refl eq_refl eq_refl (or_introl U)). eauto.
Qed.
