(** Formatting files: C45, C46.  Specification: [parts], [part_ok], [expressible]
    (Accepted.v) say which accepted trees the printer and the language can express;
    [plain_config] (Comments.v) removes positions and blank-line flags, [shared_config]
    (PropsRound.v) gives every section the comments of the first one of its kind. *)
From Coq Require Import List NArith Bool String Arith Lia.
From Verif Require Import Bytes Utf8 F64 Ast Peg Actions Engine Parser AstPrint AstUtil AstInd EscapeFacts LexFacts Utf8Facts HistFacts ParseFacts InputFacts
  Tree ParseTree Lines NumPrint Layout Comments Blank Printable Accepted Utf8Tree App LintFacts LintTree AppFacts PropsRound.
From Verif Require PropsApp.
Import ListNotations.

(** ** C45: the formatted text of an accepted file is accepted, with the same meaning *)
Lemma accepted_readable opts ff data c ff1 :
  plain_options opts -> parse opts ff data = (Returned (VConfig c) [], ff1) -> printable c -> readable opts (config_string c).
Proof.
  intros (He & _) E P. unfold readable. destruct (k_invalid (config_of opts)) eqn:V; [now right|left].
  pose proof (parse_utf8 opts ff data c ff1 He V E) as U. apply printed_utf8; [exact P|]. eapply parse_texts; eassumption.
Qed.
Theorem C45_formatted_partial : forall opts ff data c ff1,
  plain_options opts -> parse opts ff data = (Returned (VConfig c) [], ff1) -> expressible c ->
  forall ff2, exists c' ff', parse opts ff2 (config_string c) = (Returned (VConfig c') [], ff') /\
    plain_config (drop_warnings c') = plain_config (drop_warnings (shared_config c)).
Proof.
  intros opts ff data c ff1 O E X ff2. destruct (parse_tree opts ff data c ff1 (proj1 O) E) as [W _].
  apply (accepted_printable c W) in X. apply C12_characterised; [exact X|exact O|]. eapply accepted_readable; eassumption.
Qed.
Print Assumptions C45_formatted_partial.
Example C45_case : exists c' ff', parse [] [] (config_string sample) = (Returned (VConfig c') [], ff') /\
  plain_config (drop_warnings c') = plain_config (drop_warnings (shared_config sample)).
Proof.
  destruct (parse [] [] sample_text) as [r ff1] eqn:E. pose proof sample_parsed as S. rewrite E in S. cbn [fst] in S. subst r.
  apply (C45_formatted_partial [] [] sample_text sample ff1 default_plain E).
  apply accepted_printable; [exact (proj1 (parse_tree _ _ _ _ _ (proj1 default_plain) E))|exact sample_printable].
Qed.
(** Without the condition on the parts of the tree the claim is false, for every kind of part
    but the array in a condition: *)
Definition tree_of (text : bytes) (c : config) : Prop := fst (parse [] [] text) = Returned (VConfig c) [].
Definition rejected (text : bytes) : Prop := forall c, fst (parse [] [] text) <> Returned (VConfig c) [].
(** a quote in a selector or in a regular expression: text is lost, and the rest is not accepted; *)
Definition selector_text := b "filter { if [it's] { } }".
Definition selector_tree := Eval vm_compute in the_config selector_text.
Theorem C45_selector_refuted : exists c, tree_of selector_text c /\ rejected (config_string c).
Proof. exists selector_tree. split; [vm_compute; reflexivity|]. intros c. vm_compute. discriminate. Qed.
Definition regexp_text := b "filter { if [a] =~ /it's/ { } p { a => 'x' } }".
Definition regexp_tree := Eval vm_compute in the_config regexp_text.
Theorem C45_regexp_refuted : exists c, tree_of regexp_text c /\ rejected (config_string c).
Proof. exists regexp_tree. split; [vm_compute; reflexivity|]. intros c. vm_compute. discriminate. Qed.
(** a number below 10^-10: another number is read back; *)
Definition number_text := b "filter { p { a => 0.00000000001 } }".
Definition number_tree := Eval vm_compute in the_config number_text.
Definition number_again := Eval vm_compute in the_config (config_string number_tree).
Theorem C45_number_refuted : exists c c', tree_of number_text c /\ tree_of (config_string c) c' /\
  plain_config (drop_warnings c') <> plain_config (drop_warnings c).
Proof. exists number_tree, number_again. split; [vm_compute; reflexivity|]. split; [vm_compute; reflexivity|]. vm_compute. discriminate. Qed.
(** a plugin named else after a branch with an empty else block: it is read as that block. *)
Definition else_text := b "filter { if [a] { } else { } else { } }".
Definition else_tree := Eval vm_compute in the_config else_text.
Definition else_again := Eval vm_compute in the_config (config_string else_tree).
Theorem C45_else_refuted : exists c c', tree_of else_text c /\ tree_of (config_string c) c' /\
  List.length (plugins_config c) = 1 /\ plugins_config c' = [].
Proof. exists else_tree, else_again. repeat (split; [vm_compute; reflexivity|]). vm_compute. reflexivity. Qed.
(** an array in a condition whose commas were in comments that are not kept: it is read as a field selector. *)
Definition array_text := b ("filter { if [a] in [ { ""a"" # x,y" ++ nl ++ " => ""b"" } ] { } }").
Definition array_tree := Eval vm_compute in the_config array_text.
Definition array_again := Eval vm_compute in the_config (config_string array_tree).
Theorem C45_array_refuted : exists c c', tree_of array_text c /\ tree_of (config_string c) c' /\
  plain_config (drop_warnings c') <> plain_config (drop_warnings c).
Proof. exists array_tree, array_again. split; [vm_compute; reflexivity|]. split; [vm_compute; reflexivity|]. vm_compute. discriminate. Qed.
Print Assumptions C45_array_refuted.

(** The commands: after format -w of files whose trees are expressible, check accepts them all, and a second
    format -w of them succeeds. *)
Lemma accepts_expressible content c : accepts format_opts content c -> expressible c ->
  exists c', accepts format_opts (config_string c) c' /\ plain_config (drop_warnings c') = plain_config (drop_warnings (shared_config c)).
Proof.
  intros A X. destruct (A []) as (ff1 & E). destruct (C45_formatted_partial [] [] content c ff1 default_plain E X []) as (c' & ff' & E' & P).
  exists c'. split; [|exact P]. intros ff. exists ff'. now rewrite (parse_same format_opts ff [] _ plain_format).
Qed.
Definition formattable (n : node) : Prop :=
  n = NDir \/ exists content c, n = NFile content true true /\ accepts [] content c /\ expressible c.
Theorem C45_commands_partial : forall S args w, NoDup args ->
  (forall p, In p args -> os_short S p = None /\ formattable (w_fs w p)) ->
  exists w', format S true w args = (CErrs [], w') /\ fst (check S w' args) = CErrs [] /\
    (forall p content c, In p args -> w_fs w p = NFile content true true -> accepts [] content c ->
       exists c', w_fs w' p = NFile (config_string c) true true /\ accepts [] (config_string c) c' /\
         plain_config (drop_warnings c') = plain_config (drop_warnings (shared_config c))) /\
    exists w2, format S true w' args = (CErrs [], w2).
Proof.
  intros S args w N H.
  assert (R : forall p, In p args -> os_short S p = None /\ exists n, rewrites (w_fs w p) n).
  { intros p I. destruct (H p I) as (O & [D|(content & c & D & A & X)]); (split; [exact O|]); rewrite D; [exists NDir; constructor|eexists; constructor; exact A]. }
  destruct (PropsApp.C32_rewrite S args w N R) as (w' & F & _ & G & _). exists w'. split; [exact F|].
  assert (K : forall p content c, In p args -> w_fs w p = NFile content true true -> accepts [] content c ->
       exists c', w_fs w' p = NFile (config_string c) true true /\ accepts [] (config_string c) c' /\
         plain_config (drop_warnings c') = plain_config (drop_warnings (shared_config c))).
  { intros p content c I E A. specialize (G p I). rewrite E in G. inversion G as [|content' c0 A0 E1 E2]; subst.
    pose proof (accepts_fun _ _ _ _ A0 A) as X. subst c0. destruct (H p I) as (_ & [D|(content' & c1 & D & A1 & X)]); [congruence|].
    rewrite E in D. inversion D; subst content'. pose proof (accepts_fun _ _ _ _ A1 A) as X1. subst c1.
    destruct (accepts_expressible content c A X) as (c' & A' & P'). exists c'. auto. }
  assert (T : forall p, In p args -> w_fs w' p = NDir \/ exists content c, w_fs w' p = NFile content true true /\ accepts [] content c).
  { intros p I. destruct (H p I) as (_ & [D|(content & c & D & A & X)]).
    - left. specialize (G p I). rewrite D in G. now inversion G.
    - right. destruct (K p content c I D A) as (c' & E' & A' & _). eauto. }
  split; [|split; [exact K|]].
  - apply PropsApp.C30_iff.
    + intros p I. destruct (T p I) as [D|(content & c & D & _)]; rewrite D; discriminate.
    + intros p I. destruct (T p I) as [D|(content & c & D & A)]; [now left|right]. destruct (A []) as (ff & E). eauto 8.
  - destruct (PropsApp.C32_rewrite S args w' N) as (w2 & F2 & _); [|eauto].
    intros p I. split; [exact (proj1 (H p I))|]. destruct (T p I) as [D|(content & c & D & A)]; rewrite D; [exists NDir; constructor|eexists; constructor; exact A].
Qed.
Print Assumptions C45_commands_partial.
(** ** C14 for files: the third formatting of an accepted file changes nothing *)
Theorem C14_files_partial : forall opts ff text c ff1 t1 t2, plain_options opts ->
  parse opts ff text = (Returned (VConfig c) [], ff1) -> expressible c ->
  formatted opts (config_string c) t1 -> formatted opts t1 t2 -> t2 = t1.
Proof.
  intros opts ff text c ff1 t1 t2 O E X. destruct (parse_tree opts ff text c ff1 (proj1 O) E) as [W _].
  apply (accepted_printable c W) in X. apply C14_second_partial; [exact X|exact O|]. eapply accepted_readable; eassumption.
Qed.
Print Assumptions C14_files_partial.
Lemma sample_accepted : accepts [] sample_text sample.
Proof.
  intros ff. destruct (parse [] [] sample_text) as [r ff1] eqn:E. exists ff1. rewrite (parse_same format_opts ff [] _ plain_format).
  change format_opts with (@nil popt). rewrite E. pose proof sample_parsed as S. rewrite E in S. cbn [fst] in S. now subst r.
Qed.
Lemma sample_expressible : expressible sample.
Proof. apply accepted_printable; [exact (accepts_wf [] _ _ plain_format sample_accepted)|exact sample_printable]. Qed.
Example C45_commands_case : formattable (NFile sample_text true true) /\ formattable NDir.
Proof. split; [right|left; reflexivity]. exists sample_text, sample. split; [reflexivity|]. split; [exact sample_accepted|exact sample_expressible]. Qed.
Example C14_files_case : exists ff, parse [] [] sample_text = (Returned (VConfig sample) [], ff) /\ expressible sample /\ exists t, formatted [] (config_string sample) t.
Proof.
  destruct (sample_accepted []) as (ff & E). exists ff. split; [exact E|]. split; [exact sample_expressible|]. eexists. exact C14_case.
Qed.

(** ** C46: what lint --auto-fix writes is accepted, and is the fixed tree *)
(** [nameable] (LintTree.v): every double quote in the name of a plugin follows a backslash, as in all
    names that are not written in quotes. *)
Definition plain_plugin : plugin -> plugin := g_plugin (fun _ => map text_only).
Section Commute.
  Variable f : spot -> cblock -> cblock.
  Lemma g_plugins x : plugins (g_bop f x) = map (g_plugin f) (plugins x).
  Proof.
    induction x as [|p|p|i es e IHi IHes IHe] using bop_ind'; try reflexivity.
    assert (L : forall l, Forall (fun x => plugins (g_bop f x) = map (g_plugin f) (plugins x)) l -> flat_map plugins (map (g_bop f) l) = map (g_plugin f) (flat_map plugins l)).
    { intros l H. induction H as [|x l Hx _ IH]; [reflexivity|]. cbn [map flat_map]. now rewrite map_app, Hx, IH. }
    change (g_bop f (BBranch i es e)) with (BBranch (g_if f i) (map (g_if f) es) (g_else f e)). rewrite !branch_plugins, !map_app. f_equal; [|f_equal].
    - destruct i as [p c l com foot]. apply L, IHi.
    - induction IHes as [|[p c l com foot] es H _ IH]; [reflexivity|]. cbn [map flat_map]. rewrite map_app, IH. f_equal. apply L, H.
    - destruct e. apply L, IHe.
  Qed.
  Lemma g_skeleton x : skeleton (g_bop f x) = g_bop f (skeleton x).
  Proof.
    induction x as [|p|p|i es e IHi IHes IHe] using bop_ind'; try reflexivity.
    assert (L : forall l, Forall (fun x => skeleton (g_bop f x) = g_bop f (skeleton x)) l -> map skeleton (map (g_bop f) l) = map (g_bop f) (map skeleton l)).
    { intros l H. induction H as [|x l Hx _ IH]; [reflexivity|]. cbn [map]. now rewrite Hx, IH. }
    change (g_bop f (BBranch i es e)) with (BBranch (g_if f i) (map (g_if f) es) (g_else f e)). rewrite !skel_branch.
    change (g_bop f (BBranch ?a ?l ?d)) with (BBranch (g_if f a) (map (g_if f) l) (g_else f d)). f_equal.
    - destruct i as [p c l com foot]. cbn [kif g_if]. f_equal. apply L, IHi.
    - induction IHes as [|[p c l com foot] es H _ IH]; [reflexivity|]. cbn [map]. rewrite IH. f_equal. cbn [kif g_if]. f_equal. apply L, H.
    - destruct e. cbn [g_else]. f_equal. apply L, IHe.
  Qed.
  Lemma g_skeleton_section s : skeleton_section (g_section f s) = g_section f (skeleton_section s).
  Proof. unfold skeleton_section, g_section. cbn [ps_pos ps_type ps_bops ps_com ps_foot]. f_equal. rewrite !map_map. apply map_ext. apply g_skeleton. Qed.
  Lemma g_skeleton_config c : skeleton_config (g_config f c) = g_config f (skeleton_config c).
  Proof. unfold skeleton_config, g_config. cbn [cf_input cf_filter cf_output cf_foot cf_warnings]. f_equal; rewrite !map_map; apply map_ext; apply g_skeleton_section. Qed.
  Lemma g_plugins_section s : plugins_section (g_section f s) = map (g_plugin f) (plugins_section s).
  Proof. unfold plugins_section, g_section. cbn [ps_bops]. induction (ps_bops s) as [|x l IH]; [reflexivity|]. cbn [map flat_map]. now rewrite map_app, g_plugins, IH. Qed.
  Lemma g_plugins_config c : plugins_config (g_config f c) = map (g_plugin f) (plugins_config c).
  Proof.
    unfold plugins_config, g_config. cbn [cf_input cf_filter cf_output]. rewrite <- !map_app. induction (cf_input c ++ _) as [|x l IH]; [reflexivity|].
    cbn [map flat_map]. now rewrite map_app, g_plugins_section, IH.
  Qed.
  Lemma g_id_loop n l k : id_loop n (map (g_attr f k) l) = id_loop n l.
  Proof. induction l as [|a l IH]; [reflexivity|]. cbn [map id_loop]. rewrite IH. destruct a; reflexivity. Qed.
  Lemma g_plugin_id p : plugin_id (g_plugin f p) = plugin_id p.
  Proof. destruct p as [q n [|a l] com foot]; [reflexivity|]. cbn [g_plugin g_list plugin_id id_loop]. rewrite g_id_loop. destruct a; reflexivity. Qed.
End Commute.
Lemma shared_plugins c : plugins_config (shared_config c) = plugins_config c.
Proof.
  unfold plugins_config, shared_config. cbn [cf_input cf_filter cf_output]. rewrite !flat_map_app.
  assert (S : forall l, flat_map plugins_section (shared l) = flat_map plugins_section l).
  { intros [|s l]; [reflexivity|]. unfold shared. generalize (s :: l). intros m. induction m as [|x m IH]; [reflexivity|]. cbn [map flat_map]. now rewrite IH. }
  now rewrite !S.
Qed.
Lemma shared_skeleton c : skeleton_config (shared_config c) = shared_config (skeleton_config c).
Proof.
  assert (S : forall l, map skeleton_section (shared l) = shared (map skeleton_section l)).
  { intros [|s l]; [reflexivity|]. unfold shared. cbn [map]. f_equal. rewrite !map_map. now apply map_ext. }
  unfold skeleton_config, shared_config. cbn [cf_input cf_filter cf_output cf_foot cf_warnings]. now rewrite !S.
Qed.
Lemma lint_plain : plain_options lint_opts. Proof. repeat split. Qed.

Lemma fixed_reread opts content c c' : plain_options opts -> plain_opts opts -> accepts opts content c -> expressible c ->
  skeleton_config c' = skeleton_config c -> plugins_config c' = fixed 1 (plugins_config c) ->
  (forall x, In x (plugins_config c) -> missing x = true -> nameable x) ->
  forall opts', plain_options opts' -> plain_opts opts' -> k_invalid (config_of opts') = k_invalid (config_of opts) ->
  exists c1, accepts opts' (config_string c') c1 /\
    map plain_plugin (plugins_config c1) = map plain_plugin (fixed 1 (plugins_config c)) /\
    plain_config (skeleton_config (drop_warnings c1)) = plain_config (skeleton_config (drop_warnings (shared_config c))).
Proof.
  intros O O2 A X E1 E2 N opts' O' O2' Ei. destruct (A []) as (ff1 & E). destruct (parse_tree opts [] content c ff1 (proj1 O) E) as [W _].
  apply (accepted_printable c W) in X.
  assert (G : rel_config grown c c'). { apply same_shape; [exact W|exact E1|]. rewrite E2. apply fixed_grown, Forall_forall. exact N. }
  pose proof (grown_printable _ _ G X) as X'.
  assert (V : readable opts' (config_string c')).
  { unfold readable. rewrite Ei. destruct (k_invalid (config_of opts)) eqn:Ev; [now right|left].
    pose proof (parse_utf8 opts [] content c ff1 (proj1 O) Ev E) as U. apply printed_utf8; [exact X'|]. apply (grown_utf8 c c' G). eapply parse_texts; [exact (proj1 O)|exact U|exact E]. }
  destruct (C12_characterised opts' [] c' X' O' V) as (c1 & ff' & P & Q). exists c1. split; [|split].
  - intros ff. exists ff'. now rewrite (parse_same opts' ff [] _ O2').
  - apply (f_equal plugins_config) in Q. unfold plain_config in Q. rewrite !g_plugins_config in Q.
    change (plugins_config (drop_warnings c1)) with (plugins_config c1) in Q. change (plugins_config (drop_warnings (shared_config c'))) with (plugins_config (shared_config c')) in Q.
    rewrite shared_plugins, E2 in Q. exact Q.
  - apply (f_equal skeleton_config) in Q. unfold plain_config in *. rewrite !g_skeleton_config in Q. rewrite Q. f_equal.
    change (drop_warnings (skeleton_config (shared_config c')) = drop_warnings (skeleton_config (shared_config c))). now rewrite !shared_skeleton, E1.
Qed.
Theorem C46_fixed_file_partial : forall S w p content c,
  w_fs w p = NFile content true true -> os_short S p = None ->
  accepts [OptExceptionalCommentsWarning true] content c -> expressible c ->
  (exists x, In x (plugins_config c) /\ forall id, plugin_id x <> IdOk id) ->
  (forall x, In x (plugins_config c) -> (forall id, plugin_id x <> IdOk id) -> nameable x) ->
  exists text c1, w_fs (snd (lint S true w [p])) p = NFile text true true /\ accepts [] text c1 /\
    map plain_plugin (plugins_config c1) = map plain_plugin (fixed 1 (plugins_config c)) /\
    plain_config (skeleton_config (drop_warnings c1)) = plain_config (skeleton_config (drop_warnings (shared_config c))).
Proof.
  intros S w p content c E O A X M N. destruct (PropsApp.C29_replaced S w p content c E O A M) as (c' & K1 & K2 & F).
  destruct (fixed_reread lint_opts content c c' lint_plain plain_lint A X K1 K2) with (opts' := format_opts) as (c1 & A1 & P1 & P2).
  - intros x I Hx. apply N; [exact I|]. intros id Hid. unfold missing in Hx. rewrite Hid in Hx. discriminate.
  - exact default_plain.
  - exact plain_format.
  - reflexivity.
  - exists (config_string c'), c1. auto.
Qed.
Print Assumptions C46_fixed_file_partial.
(** The second run: when no plugin has an id that is not a string, lint finds an id in every plugin of the
    fixed file, and writes nothing. *)
Theorem C46_second_run_partial : forall S w p content c,
  w_fs w p = NFile content true true -> os_short S p = None ->
  accepts [OptExceptionalCommentsWarning true] content c -> expressible c ->
  (exists x, In x (plugins_config c) /\ forall id, plugin_id x <> IdOk id) ->
  (forall x m, In x (plugins_config c) -> plugin_id x <> IdOther m) ->
  (forall x, In x (plugins_config c) -> (forall id, plugin_id x <> IdOk id) -> nameable x) ->
  exists w1 text c1, snd (lint S true w [p]) = w1 /\ w_fs w1 p = NFile text true true /\
    accepts [OptExceptionalCommentsWarning true] text c1 /\ filter missing (plugins_config c1) = [] /\
    (forall af, w_fs (snd (lint S af w1 [p])) p = NFile text true true).
Proof.
  intros S w p content c E O A X M T N. destruct (PropsApp.C29_replaced S w p content c E O A M) as (c' & K1 & K2 & F).
  destruct (fixed_reread lint_opts content c c' lint_plain plain_lint A X K1 K2) with (opts' := lint_opts) as (c1 & A1 & P1 & P2).
  - intros x I Hx. apply N; [exact I|]. intros id Hid. unfold missing in Hx. rewrite Hid in Hx. discriminate.
  - exact lint_plain.
  - exact plain_lint.
  - reflexivity.
  - exists (snd (lint S true w [p])), (config_string c'), c1. split; [reflexivity|]. split; [exact F|]. split; [exact A1|].
    assert (I1 : Forall (fun x => exists id, plugin_id x = IdOk id) (plugins_config c1)).
    { apply (f_equal (map plugin_id)) in P1. rewrite !map_map in P1.
      assert (Q1 : forall l, map (fun x => plugin_id (plain_plugin x)) l = map plugin_id l) by (intros l; apply map_ext, g_plugin_id). rewrite !Q1 in P1.
      assert (I2 : Forall (fun r => exists id, r = IdOk id) (map plugin_id (fixed 1 (plugins_config c)))).
      { clear -T. generalize 1. induction (plugins_config c) as [|x l IH]; intros k; [constructor|]. cbn [fixed map]. constructor; [|apply IH; intros y m I; apply T; now right].
        unfold fix_plugin, missing. destruct (plugin_id x) as [id|m|m] eqn:Ex; [eauto| |now elim (T x m (or_introl eq_refl))]. eexists. eapply with_id_found; eassumption. }
      rewrite <- P1, Forall_map in I2. exact I2. }
    split; [|intros af].
    + clear -I1. induction I1 as [|x l [id Hx] _ IH]; [reflexivity|]. cbn [filter]. unfold missing at 1. now rewrite Hx.
    + rewrite <- F. apply PropsApp.C29_untouched.
      * intros q [<-|[]]. rewrite F. discriminate.
      * right. right. right. eexists _, _, _. split; [exact F|]. split; [exact A1|exact I1].
Qed.
Print Assumptions C46_second_run_partial.

(** The cases: the sample of C28 meets the hypotheses; *)
Definition lint_sample : bytes := b "input { stdin { } } filter { if [a] { mutate { id => ""x"" } } else { drop { } } }".
Definition lint_tree : config := Eval vm_compute in the_config lint_sample.
Lemma lint_sample_accepted : accepts lint_opts lint_sample lint_tree.
Proof.
  assert (E : fst (parse lint_opts [] lint_sample) = Returned (VConfig lint_tree) []) by (vm_compute; reflexivity).
  intros ff. destruct (parse lint_opts [] lint_sample) as [r ff1] eqn:P. exists ff1. rewrite (parse_same lint_opts ff [] _ plain_lint), P. cbn [fst] in E. now subst r.
Qed.
Example C46_case : accepts [OptExceptionalCommentsWarning true] lint_sample lint_tree /\ expressible lint_tree /\
  (exists x, In x (plugins_config lint_tree) /\ forall id, plugin_id x <> IdOk id) /\
  (forall x m, In x (plugins_config lint_tree) -> plugin_id x <> IdOther m) /\
  (forall x, In x (plugins_config lint_tree) -> (forall id, plugin_id x <> IdOk id) -> nameable x).
Proof.
  split; [exact lint_sample_accepted|]. split.
  - apply accepted_printable; [exact (accepts_wf _ _ _ plain_lint lint_sample_accepted)|]. apply (proj1 (printableb_iff _)). vm_compute. reflexivity.
  - assert (L : exists q1 q2 q3 l2, plugins_config lint_tree = [Plugin q1 (b "stdin") [] [] []; Plugin q2 (b "mutate") l2 [] []; Plugin q3 (b "drop") [] [] []] /\ plugin_id (Plugin q2 (b "mutate") l2 [] []) = IdOk (b "x"))
      by (eexists _, _, _, _; split; reflexivity).
    destruct L as (q1 & q2 & q3 & l2 & -> & E2). split; [|split].
    + exists (Plugin q1 (b "stdin") [] [] []). split; [now left|]. discriminate.
    + intros x m [<-|[<-|[<-|[]]]]; [discriminate|rewrite E2; discriminate|discriminate].
    + intros x [<-|[<-|[<-|[]]]] H; apply word_nameable; (split; [discriminate|]); apply Forall_forall; intros c I; cbn in I; unfold word_char, bareword_char, bareword_start;
      repeat (destruct I as [<-|I]; [lia|]); contradiction.
Qed.
(** a plugin whose name is written in double quotes gives a file that is not accepted. *)
Definition quoted_disk : path -> node := fun p => if beqb p (b "f") then NFile (b "input { ""foo"" { } }") true true else NAbsent.
Definition quoted_after : bytes := Eval vm_compute in
  match w_fs (snd (lint PropsApp.sys true (World quoted_disk [] []) [b "f"])) (b "f") with NFile t _ _ => t | _ => [] end.
Theorem C46_refuted : (exists c, tree_of (b "input { ""foo"" { } }") c) /\ exists text,
  w_fs (snd (lint PropsApp.sys true (World quoted_disk [] []) [b "f"])) (b "f") = NFile text true true /\ rejected text.
Proof.
  split; [eexists; vm_compute; reflexivity|]. exists quoted_after. split; [vm_compute; reflexivity|]. intros c. vm_compute. discriminate.
Qed.
Print Assumptions C46_refuted.
