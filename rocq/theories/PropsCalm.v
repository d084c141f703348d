(** C71: what the tool writes gives no warning about exceptional comments. *)
From Coq Require Import List NArith Bool String Arith Lia FinFun.
From Verif Require Import Bytes Utf8 F64 Ast Peg Actions Engine Parser AstPrint AstUtil AstInd LexFacts Utf8Facts HistFacts ParseFacts InputFacts LimitFacts
  Tree ParseTree Lines Layout Bare Comments Printable Accepted App LintFacts LintTree AppFacts Spelled SpellParse Hashes PropsRound PropsFormat PropsSpell.
From Verif Require PropsApp PropsCmd.
Import ListNotations.

(** ** The number signs of what is read back *)
Lemma of_type_sum (ss : list section) (h : section -> nat) : Forall (fun s => ps_type s <> PTUndef) ss ->
  sum_of h ss = sum_of h (of_type PTInput ss) + sum_of h (of_type PTFilter ss) + sum_of h (of_type PTOutput ss).
Proof.
  induction 1 as [|s ss H _ IH]; [reflexivity|]. rewrite sum_cons, IH. unfold of_type. cbn [filter].
  destruct (ps_type s) eqn:E; try (now elim H);
    repeat match goal with |- context [is_type ?t s] =>
      let K := fresh in
      (assert (K : is_type t s = true) by (unfold is_type; rewrite E; reflexivity)) || (assert (K : is_type t s = false) by (unfold is_type; rewrite E; reflexivity)); rewrite K; clear K end;
    rewrite sum_cons; lia.
Qed.
Lemma sections_hashes ss c : wf_config c -> Forall (fun s => ps_type s <> PTUndef) ss ->
  cf_input c = of_type PTInput ss -> cf_filter c = of_type PTFilter ss -> cf_output c = of_type PTOutput ss ->
  W (pc_config ss (cf_foot c)) = h_config c.
Proof.
  intros (W1 & W2 & W3 & _) U I1 I2 I3. rewrite I1 in W1. rewrite I2 in W2. rewrite I3 in W3. unfold h_config. rewrite I1, I2, I3.
  rewrite <- of_type_sum by exact U.
  assert (S : Forall (fun s => forall k, W (pc_section k s) = h_section s) ss).
  { apply Forall_forall. intros s I k. apply All_Forall in W1, W2, W3. assert (T : exists t, wf_section t s); [|destruct T as [t T]; eapply W_section; exact T].
    pose proof (proj1 (Forall_forall _ _) U s I) as N. rewrite Forall_forall in W1, W2, W3. unfold of_type in *.
    destruct (ps_type s) eqn:E; [exists PTInput; apply W1|exists PTFilter; apply W2|exists PTOutput; apply W3|now elim N]; apply filter_In; (split; [exact I|]); unfold is_type; now rewrite E. }
  unfold pc_config. rewrite W_app. replace (W [PGap Next (cf_foot c)]) with (wcom (cf_foot c)) by (unfold W; rewrite sum_cons; unfold sum_of; cbn [map list_sum fold_right w_piece]; lia).
  f_equal. destruct S as [|s ss' E S]; [reflexivity|]. rewrite W_app, E, sum_cons, W_flat. f_equal. apply sum_F. eapply Forall_impl; [|exact S]. auto.
Qed.
Lemma shared_hashes c : printable c -> hc (config_string c) = h_config (shared_config c).
Proof.
  intros P. rewrite hc_config by exact P. unfold h_config, shared_config. cbn [cf_input cf_filter cf_output cf_foot].
  assert (S : forall l, sum_of h_section (shared l) = sum_of (fun s => wcom (match l with p :: _ => ps_com p | [] => [] end) + sum_of h_bop (ps_bops s) + wcom (ps_foot s)) l).
  { intros [|s l]; [reflexivity|]. unfold shared. now rewrite sum_map. }
  now rewrite !S.
Qed.
Lemma no_hidden hs : sum_of (fun h : position * bytes => hc (snd h)) hs = 0 -> commented hs = [].
Proof.
  induction hs as [|[p t] hs IH]; [reflexivity|]. rewrite sum_cons. cbn [snd]. intros E. unfold commented in *. cbn [filter].
  assert (K : has_comment (p, t) = false).
  { unfold has_comment. cbn [snd]. destruct (existsb (N.eqb HASH) t) eqn:X; [|reflexivity]. apply existsb_exists in X as (c & I & Y). apply N.eqb_eq in Y. subst c. elim (hc_zero t); [lia|exact I]. }
  rewrite K. apply IH. lia.
Qed.

(** What the printer wrote for a printable tree is parsed without a warning, whether or
    not warnings are asked for. *)
Theorem C71_printed : forall opts ff c, printable c -> plain_options opts -> readable opts (config_string c) ->
  exists c' ff', parse opts ff (config_string c) = (Returned (VConfig c') [], ff') /\ cf_warnings c' = [].
Proof.
  intros opts ff c P O U. destruct (C12_characterised opts ff c P O U) as (c' & ff' & E & Q). exists c', ff'. split; [exact E|].
  destruct O as (O1 & O2 & O3). destruct (parse_tree _ _ _ _ _ O1 E) as [Wf _].
  destruct (parse_spelled _ _ _ _ _ O1 E) as [[_ ->]|(ss & hs & N & T & I1 & I2 & I3 & Sp & Wn)]; [reflexivity|].
  rewrite Wn. destruct (k_warn (config_of opts)); [|reflexivity]. rewrite O3 in Sp.
  apply spelled_hashes in Sp. rewrite (sections_hashes ss c' Wf T I1 I2 I3) in Sp. rewrite shared_hashes in Sp by exact P.
  apply (f_equal h_config) in Q. rewrite !h_plain in Q. change (h_config (drop_warnings c')) with (h_config c') in Q. change (h_config (drop_warnings (shared_config c))) with (h_config (shared_config c)) in Q.
  rewrite no_hidden; [reflexivity|lia].
Qed.
Print Assumptions C71_printed.
Definition calm_text : bytes := b "input { stdin { } } # end" ++ [NL].
Example C71_case : printable sample /\ readable [OptExceptionalCommentsWarning true] (config_string sample) /\
  plain_options [OptExceptionalCommentsWarning true] /\ In HASH (config_string sample) /\
  (* the same file before formatting may give warnings *)
  exists c ff, parse [OptExceptionalCommentsWarning true] [] spell_text = (Returned (VConfig c) [], ff) /\ List.length (cf_warnings c) = 2 /\ printable c /\
  exists c' ff', parse [OptExceptionalCommentsWarning true] [] (config_string c) = (Returned (VConfig c') [], ff') /\ cf_warnings c' = [] /\ In HASH (config_string c).
Proof.
  split; [exact sample_printable|]. split; [exact sample_readable|]. split; [repeat split|]. split; [vm_compute; tauto|].
  destruct (parse [OptExceptionalCommentsWarning true] [] spell_text) as [r ff] eqn:E. pose proof (proj1 C55_case) as S. unfold spell_opts in S. rewrite E in S. cbn [fst] in S. subst r.
  exists spell_config, ff. split; [reflexivity|]. split; [vm_compute; reflexivity|]. assert (P : printable spell_config) by (apply printableb_iff; vm_compute; reflexivity). split; [exact P|].
  destruct (C71_printed [OptExceptionalCommentsWarning true] [] spell_config P) as (c' & ff' & E' & N); [repeat split|left; apply ascii_utf8; vm_compute; reflexivity|].
  exists c', ff'. split; [exact E'|]. split; [exact N|]. vm_compute. tauto.
Qed.

(** ** Formatting and then linting *)
(** Formatting an accepted file removes every comment the parser would warn about. *)
Lemma formatted_calm content c : accepts [] content c -> expressible c -> forall opts, plain_options opts -> plain_opts opts ->
  k_invalid (config_of opts) = false ->
  exists c', accepts opts (config_string c) c' /\ cf_warnings c' = [] /\
    plain_config (drop_warnings c') = plain_config (drop_warnings (shared_config c)).
Proof.
  intros A X opts O O2 Oi. destruct (A []) as (ff1 & E). destruct (parse_tree [] [] content c ff1 (proj1 default_plain) E) as [Wf _].
  apply (accepted_printable c Wf) in X. pose proof (accepted_readable [] [] content c ff1 default_plain E X) as U.
  assert (U' : readable opts (config_string c)) by (destruct U as [U|U]; [now left|discriminate]).
  destruct (C12_characterised opts [] c X O U') as (c' & ff' & E' & Q). destruct (C71_printed opts [] c X O U') as (c2 & ff2 & E2 & N).
  assert (c2 = c') by congruence. subst c2.
  exists c'. split; [|auto]. intros ff. exists ff'. now rewrite (parse_same opts ff [] _ O2).
Qed.
Lemma plain_ids c c' : plain_config (drop_warnings c') = plain_config (drop_warnings (shared_config c)) ->
  map plugin_id (plugins_config c') = map plugin_id (plugins_config c).
Proof.
  intros Q. apply (f_equal plugins_config) in Q. unfold plain_config in Q. rewrite !g_plugins_config in Q.
  change (plugins_config (drop_warnings c')) with (plugins_config c') in Q. change (plugins_config (drop_warnings (shared_config c))) with (plugins_config (shared_config c)) in Q.
  rewrite shared_plugins in Q. apply (f_equal (map plugin_id)) in Q. rewrite !map_map in Q.
  rewrite (map_ext (fun x => plugin_id (g_plugin (fun _ => map text_only) x)) plugin_id) in Q by (intros x; apply g_plugin_id).
  rewrite (map_ext (fun x => plugin_id (g_plugin (fun _ => map text_only) x)) plugin_id) in Q by (intros x; apply g_plugin_id). exact Q.
Qed.
(** After format -w of files whose trees are expressible, lint complains exactly if the ids
    of some file are not all there, strings, and different. *)
Theorem C71_format_lint : forall S args w, NoDup args ->
  (forall p, In p args -> os_short S p = None /\ formattable (w_fs w p)) ->
  exists w' es, format S true w args = (CErrs [], w') /\ fst (lint S false w' args) = CErrs es /\
    (es = [] <-> forall p content c, In p args -> w_fs w p = NFile content true true -> accepts [] content c ->
       exists ids, map plugin_id (plugins_config c) = map IdOk ids /\ NoDup ids).
Proof.
  intros S args w N H.
  assert (R : forall p, In p args -> os_short S p = None /\ exists n, rewrites (w_fs w p) n).
  { intros p I. destruct (H p I) as (O & [D|(content & c & D & A & X)]); (split; [exact O|]); rewrite D; [exists NDir; constructor|eexists; constructor; exact A]. }
  destruct (PropsApp.C32_rewrite S args w N R) as (w' & F & _ & G & _). exists w'.
  assert (T : forall p, In p args -> (w_fs w p = NDir /\ w_fs w' p = NDir) \/ exists content c, w_fs w p = NFile content true true /\ accepts [] content c /\ expressible c /\
    w_fs w' p = NFile (config_string c) true true).
  { intros p I. destruct (H p I) as (_ & [D|(content & c & D & A & X)]).
    - left. specialize (G p I). rewrite D in G. split; [exact D|]. now inversion G.
    - right. exists content, c. repeat (split; [assumption|]). specialize (G p I). rewrite D in G. inversion G as [|content' c2 A2 E1 E2]; subst. now rewrite (accepts_fun _ _ _ _ A A2). }
  destruct (lint_ok S false args w') as (es & E & Rn & _). { intros p I. destruct (T p I) as [[_ D]|(content & c & _ & _ & _ & D)]; rewrite D; discriminate. }
  exists es. split; [exact F|]. split; [exact E|]. rewrite (PropsCmd.lint_run_clean _ _ _ _ _ Rn). split.
  - intros Cl p content c I D A. specialize (Cl p I). destruct (T p I) as [[D2 _]|(content2 & c2 & D2 & A2 & X & D3)]; [congruence|].
    assert (content2 = content) by congruence. subst content2. pose proof (accepts_fun _ _ _ _ A2 A). subst c2.
    destruct Cl as [Cl|(content' & wr & c' & ids & D4 & A4 & _ & I1 & I2)]; [congruence|]. assert (content' = config_string c) by congruence. subst content'.
    destruct (formatted_calm _ _ A X lint_opts lint_plain plain_lint eq_refl) as (c1 & A1 & _ & Q).
    pose proof (accepts_fun _ _ _ _ A4 A1). subst c1. exists ids. split; [|exact I2]. now rewrite <- (plain_ids _ _ Q).
  - intros Cl p I. destruct (T p I) as [[_ D]|(content & c & D & A & X & D3)]; [now left|right].
    destruct (Cl p content c I D A) as (ids & I1 & I2). destruct (formatted_calm _ _ A X lint_opts lint_plain plain_lint eq_refl) as (c1 & A1 & W1 & Q).
    exists (config_string c), true, c1, ids. split; [exact D3|]. split; [exact A1|]. split; [exact W1|]. split; [|exact I2]. now rewrite (plain_ids _ _ Q).
Qed.
Print Assumptions C71_format_lint.
(** ** Fixing and then linting *)
(** What is left for a second lint after lint --auto-fix: at most one message, about
    repeated ids.  (No plugin has an id that is not a string.) *)
Theorem C71_lint_twice : forall S w p content c,
  w_fs w p = NFile content true true -> os_short S p = None ->
  accepts [OptExceptionalCommentsWarning true] content c -> expressible c ->
  (exists x, In x (plugins_config c) /\ forall id, plugin_id x <> IdOk id) ->
  (forall x m, In x (plugins_config c) -> plugin_id x <> IdOther m) ->
  (forall x, In x (plugins_config c) -> (forall id, plugin_id x <> IdOk id) -> nameable x) ->
  exists es, fst (lint S false (snd (lint S true w [p])) [p]) = CErrs es /\
    (es = [] \/ exists l, es = [p ++ b ": duplicate IDs found in:" ++ [NL] ++ l]) /\
    (es = [] <-> NoDup (map plugin_id (fixed 1 (plugins_config c)))).
Proof.
  intros S w p content c E O A X M T N. destruct (PropsApp.C29_replaced S w p content c E O A M) as (c' & K1 & K2 & F).
  destruct (C46_second_run_partial S w p content c E O A X M T N) as (w1 & text & c1 & Ew & F1 & A1 & Ms & _). rewrite Ew in *.
  assert (text = config_string c') by congruence. subst text.
  (* no warnings *)
  assert (P : printable c').
  { destruct (A []) as (ff1 & Ep). destruct (parse_tree lint_opts [] content c ff1 (proj1 lint_plain) Ep) as [Wf _]. apply (accepted_printable c Wf) in X.
    assert (G : rel_config grown c c'). { apply same_shape; [exact Wf|exact K1|]. rewrite K2. apply fixed_grown, Forall_forall. intros x I Hx. apply N; [exact I|]. intros id Hid. unfold missing in Hx. rewrite Hid in Hx. discriminate. }
    exact (grown_printable _ _ G X). }
  assert (U : readable lint_opts (config_string c')).
  { destruct (A1 []) as (ffx & Ex). left. exact (parse_utf8 lint_opts [] _ c1 ffx (proj1 lint_plain) eq_refl Ex). }
  destruct (C71_printed lint_opts [] c' P lint_plain U) as (c2 & ff2 & E2 & Wn). destruct (A1 []) as (ffx & Ex). assert (c2 = c1) by (change lint_opts with [OptExceptionalCommentsWarning true] in E2; congruence). subst c2.
  destruct (fixed_reread lint_opts content c c' lint_plain plain_lint A X K1 K2) with (opts' := lint_opts) as (c3 & A3 & P1 & _); [|exact lint_plain|exact plain_lint|reflexivity|].
  { intros x I Hx. apply N; [exact I|]. intros id Hid. unfold missing in Hx. rewrite Hid in Hx. discriminate. }
  pose proof (accepts_fun _ _ _ _ A3 A1). subst c3.
  assert (Ids : map plugin_id (plugins_config c1) = map plugin_id (fixed 1 (plugins_config c))).
  { apply (f_equal (map plugin_id)) in P1. rewrite !map_map in P1.
    rewrite !(map_ext (fun x => plugin_id (plain_plugin x)) plugin_id) in P1 by (intros x; apply g_plugin_id). exact P1. }
  rewrite (PropsApp.C27_command S w1 p (config_string c') true c1 F1 A1), Wn, Ms. cbn [map app].
  eexists. split; [reflexivity|].
  assert (Q : duplicates (plugins_config c1) = [] <-> NoDup (map plugin_id (fixed 1 (plugins_config c)))).
  { rewrite <- Ids. split.
    - intros D. destruct (proj1 (PropsCmd.ids_clean (plugins_config c1)) (conj Ms D)) as (ids & I1 & I2). rewrite I1. apply Injective_map_NoDup; [|exact I2]. intros x y Exy. now inversion Exy.
    - intros D. apply (proj2 (PropsCmd.ids_clean (plugins_config c1))). clear -Ms D. induction (plugins_config c1) as [|x l IH]; [exists []; split; [reflexivity|constructor]|].
      cbn [map] in D. inversion D as [|? ? D1 D2]; subst. cbn [filter] in Ms. destruct (missing x) eqn:Mx; [discriminate|]. destruct (IH Ms D2) as (ids & I1 & I2).
      unfold missing in Mx. destruct (plugin_id x) as [id|m|m] eqn:Ex; try discriminate. exists (id :: ids). cbn [map]. rewrite Ex, I1. split; [reflexivity|]. constructor; [|exact I2].
      intros I. apply D1. rewrite I1. now apply in_map. }
  rewrite <- Q. destruct (duplicates (plugins_config c1)) as [|d l] eqn:D; cbn [map].
  - split; [now left|tauto].
  - split; [right; eexists; reflexivity|]. split; discriminate.
Qed.
Print Assumptions C71_lint_twice.
