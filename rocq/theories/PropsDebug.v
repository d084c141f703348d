(** C72: what the option Debug prints. *)
From Coq Require Import List NArith ZArith Bool String Arith Lia.
From Verif Require Import Bytes Utf8 F64 Ast Peg Actions Engine Parser GrammarGen QuoteFacts PosFacts Run EngineFacts
  RunInv HistFacts InputFacts Termination LimitFacts MemoFacts Stats StatsFacts Debug DebugFacts PropsStats PropsCost.
Import ListNotations.

(** Debug.v: [dparse xs ff data] is Parse with the options [xs] (all but Memoize): what it
    returns, the new record of failures, and the lines it prints.  DebugFacts.v specifies
    [calls] (how lines form calls within calls), [between] and [rune_at]; PosFacts.v
    specifies [true_pos] (line, column and offset of a place of the text). *)

(** the option in force: the last Debug *)
Definition the_debug (xs : list xopt) : bool := fold_left (fun d x => match x with XDebug v => v | _ => d end) xs false.
Lemma set_debug xs : forall k k', set_options xs k = Some k' ->
  x_debug k' = fold_left (fun d x => match x with XDebug v => v | _ => d end) xs (x_debug k).
Proof.
  induction xs as [|x xs IH]; intros k k'; cbn [set_options]; [now intros [= <-]|].
  destruct (apply_xopt x k) as [[k1 y]|] eqn:A; [|discriminate]. intros E. rewrite (IH _ _ E). cbn [fold_left]. f_equal.
  destruct x as [p|[s|] nm|v|key v|key v]; cbn [apply_xopt] in A; try discriminate; [destruct p|..]; injection A as <- _; reflexivity.
Qed.

(** ** The run behind *)
Definition drun (k : xcfg) (ff : list failure) (data : bytes) (e : expr) : out * dbg :=
  drule (deval (xsettings k) gen_grammar (parse_fuel (List.length data))) (x_entry k) e (xinit_st k ff data) (Dbg 0 []).
Definition handler (k : xcfg) (r : out) (d : dbg) : dbg :=
  match r with OPanic _ _ s => if x_recover k then d_note "panic handler" (s_pt s) d else d | _ => d end.
Lemma dparse_run k ff data : dparse_with (parse_fuel (List.length data)) k ff data =
  match find_rule (x_entry k) gen_grammar with
  | None => (Returned VNil [PError (Pos 1 0 0) None (MText (b "invalid entrypoint"))], ff, [])
  | Some e => let x := drun k ff data e in
      (finish (cfg_of k) (fst x) ff, if x_debug k then rev (d_out (handler k (fst x) (snd x))) else [])
  end.
Proof.
  unfold dparse_with, drun. destruct (find_rule (x_entry k) gen_grammar) as [e|]; [|reflexivity].
  destruct (drule _ _ _ _ _) as [r d]. cbn [fst snd handler]. destruct r; try reflexivity. cbn [finish cfg_of k_recover handler]. now destruct (x_recover k).
Qed.
Lemma drun_same k ff data e : fst (drun k ff data e) = fst (run_of k ff data e).
Proof.
  unfold drun, run_of. rewrite ceval_same. apply (drule_same _ (eval (xsettings k) gen_grammar (parse_fuel (List.length data)))).
  intros. apply deval_same.
Qed.
Lemma xinit_pt k ff data : s_pt (xinit_st k ff data) = start_pt data.
Proof. change (s_pt (xinit_st k ff data)) with (s_pt (init_st (xsettings k) ff data)). apply init_st_pt. Qed.
Lemma drun_fuel k ff data e : find_rule (x_entry k) gen_grammar = Some e -> fst (drun k ff data e) <> OFuel.
Proof.
  intros F. rewrite drun_same. unfold run_of. rewrite ceval_same. apply (gen_rule_fuel _ data); [exact F|rewrite xinit_pt; constructor|].
  rewrite xinit_pt, start_rest. reflexivity.
Qed.
Lemma drun_good k ff data e : find_rule (x_entry k) gen_grammar = Some e ->
  Good (xsettings k) data 0 2 (xinit_st k ff data) (Dbg 0 []) (drun k ff data e).
Proof.
  intros F. assert (He : lits_ok e = true) by exact (forallb_rule _ _ gen_lits_ok F).
  apply drule_good; [| |exact He|rewrite xinit_pt; constructor].
  - intros rule e' en s d H1 H2. rewrite deval_same. intros H3. apply (eval_tracked _ _ data gen_lits_ok); auto.
  - intros rule e0 en s d H1 H2. exact (deval_good _ _ data gen_lits_ok _ rule e0 en s d H1 H2).
Qed.
Lemma drun_tracked k ff data e : find_rule (x_entry k) gen_grammar = Some e ->
  tracked (start_pt data) (s_warns (xinit_st k ff data)) (fst (drun k ff data e)).
Proof.
  intros F. pose proof (drun_fuel k ff data e F) as H. rewrite drun_same in *. unfold run_of in *. rewrite ceval_same in *.
  rewrite <- (xinit_pt k ff data). apply (eval_tracked _ _ data gen_lits_ok); auto; [|rewrite xinit_pt; constructor].
  exact (forallb_rule _ _ gen_lits_ok F).
Qed.
Lemma drun_end k ff data e p : find_rule (x_entry k) gen_grammar = Some e -> end_pt (fst (drun k ff data e)) = Some p -> Reach data p.
Proof.
  intros F H. pose proof (drun_tracked k ff data e F) as T. assert (R : Reach data (start_pt data)) by constructor.
  destruct (fst (drun k ff data e)); cbn in *; try discriminate; injection H as <-;
    [eapply steps_reach; eauto|destruct T as [-> _]; exact R|eapply steps_reach; eauto].
Qed.

(** ** C72 *)
(** Debug changes neither what Parse returns nor the record of failures. *)
Theorem C72_same : forall xs ff data,
  match dparse xs ff data, xparse xs ff data with
  | Some (r, ff', _), Some (r', ff'', _) => r = r' /\ ff' = ff''
  | None, None => True
  | _, _ => False
  end.
Proof.
  intros xs ff data. unfold dparse, xparse. destruct (set_options xs xdefault) as [k|]; [|exact I].
  rewrite dparse_run, xparse_run. destruct (find_rule (x_entry k) gen_grammar) as [e|]; [|auto].
  cbv zeta. rewrite drun_same. destruct (finish _ _ _). auto.
Qed.
Print Assumptions C72_same.
Theorem C72_option : forall xs v ff data,
  option_map fst (dparse (xs ++ [XDebug v]) ff data) = option_map fst (dparse xs ff data).
Proof.
  intros xs v ff data. unfold dparse.
  assert (E : set_options (xs ++ [XDebug v]) xdefault = option_map (fun k => XCfg (x_max k) (x_entry k) (x_invalid k) (x_recover k) (x_global k) (x_state k) (x_stats k) (x_no_match k) v) (set_options xs xdefault)).
  { generalize xdefault. induction xs as [|x xs IH]; intros k; [reflexivity|]. cbn [app set_options]. destruct (apply_xopt x k) as [[k1 y]|]; [apply IH|reflexivity]. }
  rewrite E. destruct (set_options xs xdefault) as [k|]; [|reflexivity]. cbn [option_map]. f_equal.
  unfold dparse_with. cbn [x_max x_entry x_invalid x_recover x_global x_state x_stats x_no_match].
  destruct (find_rule (x_entry k) gen_grammar) as [e|]; [|reflexivity].
  change (xsettings (XCfg _ _ _ _ _ _ _ _ _)) with (xsettings k). change (xinit_st (XCfg _ _ _ _ _ _ _ _ _) ff data) with (xinit_st k ff data).
  destruct (drule _ _ _ _ _) as [[]]; try reflexivity. now destruct (x_recover k).
Qed.
Print Assumptions C72_option.
(** Without Debug nothing is printed. *)
Theorem C72_silent : forall xs ff data r ff' ls, the_debug xs = false -> dparse xs ff data = Some (r, ff', ls) -> ls = [].
Proof.
  intros xs ff data r ff' ls D. unfold dparse. destruct (set_options xs xdefault) as [k|] eqn:K; [|discriminate].
  pose proof (set_debug _ _ _ K) as E. change (x_debug k = the_debug xs) in E. rewrite dparse_run. rewrite E, D.
  destruct (find_rule (x_entry k) gen_grammar); congruence.
Qed.
Print Assumptions C72_silent.

(** The two lines of the panic handler *)
Definition handler_lines (data : bytes) (p : position) : list line :=
  [Line Enter 1 p (b "panic handler") (rune_at data p); Line Leave 0 p (b "panic handler") (rune_at data p)].
Lemma handler_out k r d data : d_depth d = 0%Z -> (forall p, end_pt r = Some p -> Reach data p) ->
  rev (d_out (handler k r d)) = rev (d_out d) ++ match r with OPanic _ _ s => if x_recover k then handler_lines data (pt_pos (s_pt s)) else [] | _ => [] end.
Proof.
  intros D H. destruct r as [v en s|en s|m x s|]; cbn [handler]; try (now rewrite app_nil_r). destruct (x_recover k); [|now rewrite app_nil_r].
  destruct (note_adds data "panic handler" (s_pt s) d (H _ eq_refl)) as [_ ->]. rewrite rev_app_distr, rev_involutive, D. reflexivity.
Qed.

(** Every call has its line of entry and, after the lines of the calls within, its line of
    exit, with the same name and with indents that show the depth, also when the parse
    panics; the lines MATCH show what rules and action expressions matched; a rule or
    action expression that did not match left the position where it was, unless the parse
    panicked: then the last lines are those of the panic handler, if Recover is on. *)
Theorem C72_calls : forall xs ff data r ff' ls, dparse xs ff data = Some (r, ff', ls) ->
  calls data true 0 ls \/
  calls data false 0 ls /\ ((exists m, r = Panicked m) \/ exists ls' p, ls = ls' ++ handler_lines data p).
Proof.
  intros xs ff data r ff' ls. unfold dparse. destruct (set_options xs xdefault) as [k|] eqn:K; [|discriminate].
  rewrite dparse_run. destruct (find_rule (x_entry k) gen_grammar) as [e|] eqn:F; [|intros [= <- <- <-]; left; constructor].
  cbv zeta. destruct (x_debug k); [|intros E; left; replace ls with (@nil line) by congruence; constructor].
  pose proof (drun_good k ff data e F (drun_fuel k ff data e F)) as (_ & new & [A1 A2] & C & _).
  rewrite (handler_out k _ _ data); [|exact A1|intros p; now apply drun_end]. cbn [d_out d_depth] in *. rewrite A2, app_nil_r, rev_involutive.
  intros E. destruct (fst (drun k ff data e)) as [v en s|en s|m x s|]; cbn [rounds finish cfg_of k_recover] in *.
  - left. rewrite app_nil_r in E. replace ls with new by congruence. exact C.
  - left. rewrite app_nil_r in E. replace ls with new by congruence. exact C.
  - right. destruct (x_recover k).
    + replace ls with (new ++ handler_lines data (pt_pos (s_pt s))) by congruence. split; [|right; eauto].
      apply calls_app; [exact C|]. apply (two_calls data false (b "panic handler") 0). reflexivity.
    + rewrite app_nil_r in E. replace ls with new by congruence. split; [exact C|]. left. exists m. congruence.
  - left. rewrite app_nil_r in E. replace ls with new by congruence. exact C.
Qed.
Print Assumptions C72_calls.

(** Every line shows a place of the text with its true line and column, and the rune there;
    no indent is negative (strings.Repeat would panic). *)
Theorem C72_positions : forall xs ff data r ff' ls, dparse xs ff data = Some (r, ff', ls) ->
  Forall (fun l => 0 <= l_indent l /\ true_pos data (l_pos l) /\ l_rune l = rune_at data (l_pos l))%Z ls.
Proof.
  intros xs ff data r ff' ls E.
  assert (I : Forall (fun l => 0 <= l_indent l)%Z ls) by (destruct (C72_calls _ _ _ _ _ _ E) as [C|[C _]]; exact (calls_indent _ _ _ _ C)).
  assert (G : Forall (good_line data) ls).
  { revert E. unfold dparse. destruct (set_options xs xdefault) as [k|] eqn:K; [|discriminate].
    rewrite dparse_run. destruct (find_rule (x_entry k) gen_grammar) as [e|] eqn:F; [|intros [= <- <- <-]; constructor].
    cbv zeta. destruct (x_debug k); [|intros E; replace ls with (@nil line) by congruence; constructor].
    pose proof (drun_good k ff data e F (drun_fuel k ff data e F)) as (_ & new & [A1 A2] & _ & G & _).
    rewrite (handler_out k _ _ data); [|exact A1|intros p; now apply drun_end]. cbn [d_out d_depth] in *. rewrite A2, app_nil_r, rev_involutive.
    intros E. replace ls with (new ++ match fst (drun k ff data e) with OPanic _ _ s => if x_recover k then handler_lines data (pt_pos (s_pt s)) else [] | _ => [] end) by congruence.
    apply Forall_app. split; [exact G|]. pose proof (drun_end k ff data e) as R. destruct (fst (drun k ff data e)) as [v en s|en s|m x s|]; try apply Forall_nil.
    destruct (x_recover k); [|apply Forall_nil]. specialize (R (s_pt s) F eq_refl). now apply (two_good data (b "panic handler") 0). }
  clear E. induction I as [|l ls0 Hl I IH]; [constructor|]. inversion G; subst. constructor; [split; [exact Hl|assumption]|now apply IH].
Qed.
Print Assumptions C72_positions.

(** The lines of the whole parse: a call of the rule of the entry point, from the start of
    the text.  A configuration is returned if and only if the line MATCH shows the whole
    text (entry point init). *)
Lemma drun_lines k ff data e : find_rule (x_entry k) gen_grammar = Some e ->
  exists body p, end_pt (fst (drun k ff data e)) = Some p /\
    let name := b "parseRule " ++ b (x_entry k) in
    rev (d_out (snd (drun k ff data e))) =
    Line Enter 1 (pt_pos (start_pt data)) name (rune_at data (pt_pos (start_pt data))) :: body ++
    (match fst (drun k ff data e) with OOk _ _ _ => [Line Match 1 (pt_pos p) (between data (pt_pos (start_pt data)) (pt_pos p)) (rune_at data (pt_pos p))] | _ => [] end) ++
    [Line Leave 0 (pt_pos p) name (rune_at data (pt_pos p))].
Proof.
  intros F. pose proof (drun_fuel k ff data e F) as NF. pose proof (drun_end k ff data e) as HE. specialize (fun p => HE p F).
  revert NF HE. unfold drun, drule, d_call.
  assert (He : lits_ok e = true) by exact (forallb_rule _ _ gen_lits_ok F).
  assert (Hs : Reach data (s_pt (xinit_st k ff data))) by (rewrite xinit_pt; constructor).
  set (name := b "parseRule " ++ b (x_entry k)). set (d0 := d_in name (s_pt (xinit_st k ff data)) (Dbg 0 [])).
  pose proof (deval_good (xsettings k) gen_grammar data gen_lits_ok (parse_fuel (List.length data)) (x_entry k) e [] (xinit_st k ff data) d0 He Hs) as G.
  unfold Good in G. destruct (deval _ _ _ _ _ _ _ _) as [r d1]. cbn [fst snd] in *. intros NF HE.
  assert (Hr : r <> OFuel) by (destruct r; cbn in *; auto; discriminate).
  destruct (G Hr) as (_ & new & [A1 A2] & _). clear G.
  assert (Rs : forall p, end_pt r = Some p -> Reach data p) by (intros p Hp; apply HE; destruct r; exact Hp).
  assert (D0 : d_out d0 = [Line Enter 1 (pt_pos (start_pt data)) name (rune_at data (pt_pos (start_pt data)))]).
  { unfold d0, d_in, d_print. cbn [d_out d_depth]. rewrite xinit_pt. rewrite (rune_pt data) by constructor. reflexivity. }
  assert (Z0 : d_depth d0 = 1%Z) by reflexivity. rewrite D0 in A2. rewrite Z0 in A1.
  destruct r as [v en s|en s|m x s|]; try congruence; cbn [end_pt fst snd d_match] in *; specialize (Rs _ eq_refl); exists new, (s_pt s); (split; [reflexivity|]);
    unfold d_leave, d_print; cbn [d_out d_depth rev]; rewrite A1, A2; cbn [rev]; rewrite rev_app_distr, rev_involutive; cbn [rev app];
    rewrite (rune_pt data _ Rs); rewrite <- ?app_assoc; cbn [app]; try reflexivity.
  do 3 f_equal. unfold slice_from, between. rewrite xinit_pt, (reach_rest data) by constructor. reflexivity.
Qed.

Lemma init_value k ff data v en s : x_entry k = "init"%string ->
  fst (run_of k ff data gen_init) = OOk v en s -> (exists c, v = VConfig c) /\ pt_rest (s_pt s) = [].
Proof.
  intros He E. split.
  - unfold run_of in E. rewrite He in E.
    pose proof (init_bump (xsettings k) (x_no_match k) (parse_fuel (List.length data)) (xinit_st k ff data) (st_alt (x_stats k))) as B.
    set (x := ceval _ _ _ _ _ _ _ _ _ _) in *. clearbody x. unfold init_post in B. rewrite E in B.
    destruct B as (j & e & en' & s1 & s2 & v1 & w & n' & J & V & _ & -> & _).
    destruct j as [|[|j]]; [| |now destruct j].
    + destruct (alt1_value _ _ _ _ _ _ _ J V) as (c & -> & _). destruct (with_warnings_sections c w) as (c' & -> & _). eauto.
    + destruct (alt2_value _ _ _ _ _ _ _ J V) as (c & -> & _). destruct (with_warnings_sections c w) as (c' & -> & _). eauto.
  - unfold run_of in E. rewrite ceval_same, He in E. eapply (init_ok_eof (xsettings k) data); [|rewrite <- E; apply eval_ev; rewrite E; discriminate].
    rewrite xinit_pt. constructor.
Qed.

(** With the entry point init: if a configuration is returned, with or without errors, the
    last lines are the line MATCH with the whole text and the exit from the rule; otherwise
    the rule has no line MATCH. *)
Theorem C72_outcome : forall xs ff data r ff' ls, the_debug xs = true -> k_entry (config_of (flat_map plain xs)) = "init"%string ->
  dparse xs ff data = Some (r, ff', ls) ->
  exists body q handled,
    ls = Line Enter 1 (pt_pos (start_pt data)) (b "parseRule init") (rune_at data (pt_pos (start_pt data))) :: body ++
      match r with Returned (VConfig _) _ => [Line Match 1 q data (rune_at data q)] | _ => [] end ++
      Line Leave 0 q (b "parseRule init") (rune_at data q) :: handled /\
    (handled = [] \/ handled = handler_lines data q /\ exists errs, r = Returned VNil errs) /\
    (match r with Returned (VConfig _) _ => p_off q = List.length data | Returned VNil _ => True | Panicked _ => handled = [] | _ => False end).
Proof.
  intros xs ff data r ff' ls D He. unfold dparse. destruct (set_options xs xdefault) as [k|] eqn:K; [|discriminate].
  pose proof (set_debug _ _ _ K) as E. change (x_debug k = the_debug xs) in E. rewrite D in E.
  destruct (cfg_plain _ _ K) as (P1 & _ & _). assert (X : x_entry k = "init"%string) by (rewrite <- He, <- P1; reflexivity).
  rewrite dparse_run, X. change (find_rule "init" gen_grammar) with (Some gen_init). cbv zeta. rewrite E.
  assert (F : find_rule (x_entry k) gen_grammar = Some gen_init) by now rewrite X.
  pose proof (drun_good k ff data gen_init F (drun_fuel k ff data gen_init F)) as (_ & new & [A1 _] & _).
  rewrite (handler_out k _ _ data); [|exact A1|intros p; now apply drun_end].
  destruct (drun_lines k ff data gen_init F) as (body & p & Ep & L). cbv zeta in L. rewrite L. clear L A1. rewrite X.
  pose proof (drun_same k ff data gen_init) as Sm. pose proof (drun_fuel k ff data gen_init F) as NF. pose proof (drun_end k ff data gen_init p F Ep) as Rp.
  destruct (fst (drun k ff data gen_init)) as [v en s|en s|m x s|]; try congruence; cbn [finish end_pt cfg_of k_recover] in *; injection Ep as <-; intros Q.
  - destruct (init_value k ff data v en s X (eq_sym Sm)) as [[c ->] R0].
    assert (Eq : between data (pt_pos (start_pt data)) (pt_pos (s_pt s)) = data /\ p_off (pt_pos (s_pt s)) = List.length data).
    { pose proof (reach_len _ _ Rp) as Ln. rewrite R0 in Ln. cbn [List.length] in Ln. unfold between. rewrite start_off. cbn [skipn].
      rewrite Nat.sub_0_r. split; [|lia]. apply firstn_all2. lia. }
    destruct Eq as [E1 E2]. rewrite E1 in Q. injection Q as <- <- <-.
    exists body, (pt_pos (s_pt s)), []. split; [now rewrite app_nil_r|]. split; [now left|exact E2].
  - injection Q as <- <- <-. exists body, (pt_pos (s_pt s)), []. split; [now rewrite app_nil_r|]. split; [now left|exact I].
  - destruct (x_recover k).
    + injection Q as <- <- <-. exists body, (pt_pos (s_pt s)), (handler_lines data (pt_pos (s_pt s))).
      split; [cbn [app]; now rewrite <- app_assoc|]. split; [right; split; [reflexivity|eauto]|exact I].
    + injection Q as <- <- <-. exists body, (pt_pos (s_pt s)), []. split; [now rewrite app_nil_r|]. split; [now left|reflexivity].
Qed.
Print Assumptions C72_outcome.

(** The lines ">" of expressions are the expressions Statistics counts (except the one that
    a limit on expressions refuses), and there are never more than ten lines for each. *)
Lemma debug_counts xs ff data r ff' ls r' s : the_debug xs = true ->
  dparse xs ff data = Some (r, ff', ls) -> xparse xs ff data = Some (r', s) ->
  (exists x, (x = 0 \/ x = 1 /\ 0 < limit xs < st_cnt s) /\ st_cnt s = st_cnt (the_stats xs) + expr_lines ls + x)%N /\
  (N.of_nat (List.length ls) <= 10 * (st_cnt s - st_cnt (the_stats xs)) + 4)%N.
Proof.
  intros D. unfold dparse, xparse. destruct (set_options xs xdefault) as [k|] eqn:K; [|discriminate].
  pose proof (set_debug _ _ _ K) as E. change (x_debug k = the_debug xs) in E. rewrite D in E.
  destruct (cfg_plain _ _ K) as (P1 & P2 & _). rewrite dparse_run, xparse_run. rewrite <- P2.
  destruct (find_rule (x_entry k) gen_grammar) as [e|] eqn:F.
  2: { intros [= _ _ <-] [= _ <-]. split; [|cbn; lia]. exists 0%N. split; [now left|]. unfold expr_lines. cbn. lia. }
  cbv zeta. rewrite E. pose proof (drun_fuel k ff data e F) as NF. pose proof (drun_good k ff data e F NF) as (_ & new & [A1 A2] & _ & _ & N1 & N2).
  rewrite (handler_out k _ _ data); [|exact A1|intros p; now apply drun_end].
  cbn [d_out] in A2. rewrite A2, app_nil_r, rev_involutive. rewrite drun_same in *.
  intros Q1 Q2. assert (L : ls = new ++ match fst (run_of k ff data e) with OPanic _ _ s => if x_recover k then handler_lines data (pt_pos (s_pt s)) else [] | _ => [] end) by congruence.
  assert (S : s = Stats (out_count (st_cnt (x_stats k)) (fst (run_of k ff data e))) (snd (run_of k ff data e))) by congruence. clear Q1 Q2.
  assert (C0 : s_cnt (xinit_st k ff data) = st_cnt (x_stats k)) by reflexivity. rewrite C0 in *.
  assert (C1 : st_cnt s = out_cnt (fst (run_of k ff data e))) by (rewrite S; cbn [st_cnt]; destruct (fst (run_of k ff data e)); auto; congruence).
  assert (L1 : expr_lines ls = expr_lines new /\ (List.length ls <= List.length new + 2)).
  { rewrite L, exprs_app, app_length. destruct (fst (run_of k ff data e)); cbn [List.length]; try (split; [change (expr_lines []) with 0%N|]; lia).
    destruct (x_recover k); cbn [List.length handler_lines]; split; try lia; [|change (expr_lines []) with 0%N; lia].
    change (expr_lines (handler_lines data (pt_pos (s_pt s0)))) with 0%N. lia. }
  destruct L1 as [L1 L2]. rewrite L1. split; [|lia].
  exists (refusal (xsettings k) (fst (run_of k ff data e))). split; [|lia].
  rewrite C1. clear - P1. destruct (fst (run_of k ff data e)) as [v en s0|en s0|m x s0|]; cbn [refusal out_cnt]; auto.
  destruct (over_limit (xsettings k) s0) eqn:O; auto. right. split; [reflexivity|].
  unfold limit. rewrite <- P1. cbn [cfg_of k_max]. unfold over_limit, xsettings in O. cbn [o_max] in O. destruct (N.eqb_spec (x_max k) 0); [discriminate|].
  apply N.ltb_lt in O. lia.
Qed.
Theorem C72_expressions : forall xs ff data r ff' ls r' s, the_debug xs = true ->
  dparse xs ff data = Some (r, ff', ls) -> xparse xs ff data = Some (r', s) ->
  exists x, (x = 0 \/ x = 1 /\ 0 < limit xs < st_cnt s)%N /\ (st_cnt s = st_cnt (the_stats xs) + expr_lines ls + x)%N.
Proof. intros. now apply (debug_counts xs ff data r ff' ls r' s). Qed.
Print Assumptions C72_expressions.
(** So a limit on expressions limits what is printed, and without one the number of lines is
    at most quadratic in the length of the text (C69). *)
Theorem C72_bound : forall xs ff data r ff' ls, dparse xs ff data = Some (r, ff', ls) ->
  (N.of_nat (List.length ls) <= 10 * budget (List.length data) + 14)%N /\
  ((0 < limit xs)%N -> (N.of_nat (List.length ls) <= 10 * limit xs + 14)%N).
Proof.
  intros xs ff data r ff' ls E. destruct (the_debug xs) eqn:D; [|rewrite (C72_silent _ _ _ _ _ _ D E); cbn; split; lia].
  assert (N : no_nil xs). { intros nm H. unfold dparse in E. now rewrite (set_none _ _ H) in E. }
  destruct (C61_count xs ff data N) as (r' & s & X & C). destruct (debug_counts _ _ _ _ _ _ _ _ D E X) as [_ B].
  pose proof (expressions_bound (flat_map plain xs) ff data) as Q. clear E X.
  set (t := expressions _ ff data) in *. set (n := st_cnt (the_stats xs)) in *. set (l := limit xs) in *. set (len := N.of_nat _) in *. set (bg := budget _) in *.
  rewrite C in B. clearbody t n l len bg. clear - B Q. destruct (N.eqb_spec l 0) as [Z|Z]; split; intros; lia.
Qed.
Print Assumptions C72_bound.

(** The statements speak about something: an accepted text, one with a limit that panics,
    and one with an error. *)
Definition summary (x : option (result * list failure * list line)) : option (nat * N * list (mark * Z * bytes)) :=
  match x with
  | Some (_, ls) => Some (List.length ls, expr_lines ls, map (fun l => (l_mark l, l_indent l, l_text l)) (firstn 4 ls ++ skipn (List.length ls - 4) ls))
  | None => None
  end.
Example C72_case :
  (exists l, summary (dparse [XDebug true] [] (b "input { }")) = Some (857, 236%N, l)) /\
  (exists l, summary (dparse [XDebug true] [] (b "input {")) = Some (594, 163%N, l)) /\
  expressions [] [] (b "input { }") = 236%N /\
  (exists a q, option_map snd (dparse [XDebug true] [] (b "input { }")) =
     Some (a ++ [Line Match 1 q (b "input { }") RuneError; Line Leave 0 q (b "parseRule init") RuneError])).
Proof.
  split; [eexists; vm_compute; reflexivity|]. split; [eexists; vm_compute; reflexivity|]. split; [vm_compute; reflexivity|].
  destruct (dparse [XDebug true] [] (b "input { }")) as [[[r ff'] ls]|] eqn:E; [|vm_compute in E; discriminate E].
  exists (firstn 855 ls), (Pos 1 10 9). cbn [option_map snd]. f_equal.
  rewrite <- (firstn_skipn 855 ls) at 1. f_equal. vm_compute in E. injection E as _ _ <-. vm_compute. reflexivity.
Qed.
(** with a limit of nine: the tenth expression is refused *)
Example C72_case_limit : summary (dparse [XDebug true; XOption (OptMaxExpressions 9)] [] (b "input { }")) =
  Some (32, 9%N,
    [(Enter, 1%Z, b "parseRule init"); (Enter, 2%Z, b "parseActionExpr"); (Enter, 3%Z, b "parseSeqExpr"); (Enter, 4%Z, b "cloneState");
     (Leave, 1%Z, b "parseActionExpr"); (Leave, 0%Z, b "parseRule init"); (Enter, 1%Z, b "panic handler"); (Leave, 0%Z, b "panic handler")]).
Proof. vm_compute. reflexivity. Qed.
(** ... and without Recover there is no handler *)
Example C72_case_panic : exists l, summary (dparse [XDebug true; XOption (OptMaxExpressions 9); XOption (OptRecover false)] [] (b "input { }")) = Some (30, 9%N, l).
Proof. eexists. vm_compute. reflexivity. Qed.
