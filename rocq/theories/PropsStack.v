(** Property C76: how much stack a parse needs. *)
From Coq Require Import List NArith ZArith Bool String Arith Lia.
From Verif Require Import Bytes Utf8 F64 Ast Peg Actions Engine Parser GrammarGen QuoteFacts PosFacts Run EngineFacts
  Termination AstPrint LexFacts Utf8Facts Tree Layout Spelled Written Accepted InputFacts Utf8Tree PropsLayout Stack.
Import ListNotations.
Open Scope list_scope.

(** A parse with a bounded stack gives the result of Parse, or there is no room. *)
Theorem C76_same : forall d k opts ff data r, parse_stack d k opts ff data = Some r -> r = parse opts ff data.
Proof.
  intros d k opts ff data r P. unfold parse_stack in P. pose proof (parse_run opts ff data) as R. destruct (find_rule _ _) as [e|]; [|injection P as <-; now rewrite R].
  destruct R as (r' & R & ->). pose proof (call_ev (settings_of (config_of opts)) gen_grammar d k (k_entry (config_of opts)) e [] (init_st (settings_of (config_of opts)) ff data)) as C.
  destruct (call _ _ _ _ _ _ _ _) as [v en s|en s|m x s|]; [| | |discriminate P]; (injection P as <-; now rewrite (ev_fun _ _ _ _ _ _ _ _ R (C ltac:(discriminate)))).
Qed.
Print Assumptions C76_same.

(** The stack needed is linear in the length of the text: at most 600 nested calls for
    each byte, and 600 more. *)
Theorem C76_linear : forall opts ff data d k,
  600 * (List.length data + 1) <= d -> 600 * (List.length data + 1) <= k ->
  parse_stack d k opts ff data = Some (parse opts ff data).
Proof.
  intros opts ff data d k Hd Hk. assert (Hd' : parse_fuel (List.length data) <= d) by (unfold parse_fuel, fuel_factor; lia). assert (Hk' : parse_fuel (List.length data) <= k) by (unfold parse_fuel, fuel_factor; lia). clear Hd Hk.
  destruct (parse_stack d k opts ff data) as [r|] eqn:P; [now rewrite (C76_same _ _ _ _ _ _ P)|exfalso].
  unfold parse_stack in P. destruct (find_rule _ _) as [e|] eqn:F; [|discriminate P].
  set (o := settings_of (config_of opts)) in *. set (s := init_st o ff data) in *.
  assert (H : eval o gen_grammar (parse_fuel (List.length data)) (k_entry (config_of opts)) e [] s <> OFuel).
  { apply (gen_rule_fuel _ data); auto; subst s; rewrite init_st_pt; [constructor|]. rewrite start_rest. reflexivity. }
  destruct (eval_below o gen_grammar _ d k (k_entry (config_of opts)) e [] s Hd' Hk') as [E|E]; [congruence|]. rewrite <- E in P. destruct (eval _ _ _ _ _ _ _); try discriminate P. congruence.
Qed.
Print Assumptions C76_linear.

(** With the option MaxExpressions the stack needed does not depend on the text. *)
Theorem C76_max_expressions : forall opts ff data d k,
  k_max (config_of opts) <> 0%N ->
  N.to_nat (k_max (config_of opts)) + 2 <= d -> N.to_nat (k_max (config_of opts)) + 2 <= k ->
  parse_stack d k opts ff data = Some (parse opts ff data).
Proof.
  intros opts ff data d k Hm Hd Hk.
  destruct (parse_stack d k opts ff data) as [r|] eqn:P; [now rewrite (C76_same _ _ _ _ _ _ P)|exfalso].
  unfold parse_stack in P. destruct (find_rule _ _) as [e|] eqn:F; [|discriminate P].
  set (o := settings_of (config_of opts)) in *. set (s := init_st o ff data) in *.
  assert (Ho : o_max o = Some (k_max (config_of opts))). { unfold o, settings_of. cbn. destruct (k_max (config_of opts)); [now elim Hm|reflexivity]. }
  assert (H : eval o gen_grammar (N.to_nat (k_max (config_of opts)) + 2) (k_entry (config_of opts)) e [] s <> OFuel) by (apply (limit_room o gen_grammar _ Ho); lia).
  destruct (eval_below o gen_grammar _ d k (k_entry (config_of opts)) e [] s Hd Hk) as [E|E]; [congruence|]. rewrite <- E in P. destruct (eval _ _ _ _ _ _ _); try discriminate P. congruence.
Qed.
Print Assumptions C76_max_expressions.

(** Arrays in the result are nested at most as deep as the stack. *)
Theorem C76_nesting : forall d k opts ff data c l ff',
  parse_stack d k opts ff data = Some (Returned (VConfig c) l, ff') -> cdep c <= d.
Proof.
  intros d k opts ff data c l ff' P. unfold parse_stack in P. destruct (find_rule _ _) as [e|]; [|discriminate P].
  pose proof (call_dep (settings_of (config_of opts)) gen_grammar d k (k_entry (config_of opts)) e [] (init_st (settings_of (config_of opts)) ff data)) as C.
  destruct d as [|d]; [discriminate P|].
  destruct (call _ _ _ _ _ _ _ _) as [v en s|en s|m x s|]; cbn [finish] in P; [|discriminate P|destruct (k_recover _); discriminate P|discriminate P].
  injection P as -> _ _. destruct C as [C _]. cbn [vdep edep map list_max fold_right] in C. lia.
Qed.
Print Assumptions C76_nesting.

(** ** Nested arrays *)
Definition nested (n : nat) : bytes := b "input{aa{aa=>" ++ repeat 91%N n ++ repeat 93%N n ++ b "}}".
Fixpoint nest (n : nat) (name : bytes) : attr := AtArr zero_pos name (match n with 0 => [] | S n' => [nest n' []] end) [] [].
Definition nest_section (n : nat) : section :=
  Section_ zero_pos PTInput [BPlugin (Plugin zero_pos (b "aa") [nest n (b "aa")] [] [])] [] [].
Lemma nest_dep n name : adep (nest n name) = S n.
Proof. revert name. induction n as [|n IH]; intros name; [reflexivity|]. cbn [nest adep map]. rewrite IH. cbn. lia. Qed.
Lemma nest_com n name : attr_com (nest n name) = []. Proof. now destruct n. Qed.
Lemma nest_value n : forall name u, writes (lost 0) (pc_value (nest n name)) (repeat 91%N (S n) ++ repeat 93%N (S n) ++ u) u.
Proof.
  induction n as [|n IH]; intros name u.
  - cbn. eexists. split; [reflexivity|]. eexists. split; [reflexivity|]. exists [], (93%N :: u). split; [reflexivity|]. split; [constructor|]. eexists. split; reflexivity.
  - assert (P : pc_value (nest (S n) name) = [tok "["; PLost true; PGap Plain []] ++ pc_value (nest n []) ++ [PGap Plain []; tok "]"]).
    { change (pc_value (nest (S n) name)) with ([tok "["; PLost true] ++ ((PGap Plain (attr_com (nest n [])) :: pc_value (nest n [])) ++ []) ++ [PGap Plain []; tok "]"]). now rewrite app_nil_r, nest_com. }
    rewrite P. change (repeat 91%N (S (S n))) with (91%N :: repeat 91%N (S n)). change (repeat 93%N (S (S n))) with (93%N :: repeat 93%N (S n)). rewrite (repeat_cons (S n) 93%N).
    apply written_app. exists (repeat 91%N (S n) ++ repeat 93%N (S n) ++ [93%N] ++ u). split.
    + cbn [writes]. eexists. split; [reflexivity|]. eexists. split; [reflexivity|]. eexists [], _. split; [reflexivity|]. split; [constructor|]. now rewrite <- app_assoc.
    + apply written_app. exists ([93%N] ++ u). split; [apply IH|]. exists [], ([93%N] ++ u). split; [reflexivity|]. split; [constructor|]. eexists. split; reflexivity.
Qed.
Lemma w_tok L x l t r : writes L l t r -> writes L (PTok x :: l) (x ++ t) r. Proof. intros H. cbn [writes]. eauto. Qed.
Lemma w_gap L k c l t r : writes L l t r -> writes L (PGap k c :: l) t r. Proof. intros H. cbn [writes]. exists [], t. split; [reflexivity|]. split; [apply gr_nil|exact H]. Qed.
Lemma w_hid L l t r : writes L l t r -> writes L (PHid :: l) t r. Proof. intros H. cbn [writes]. exists [], t. split; [reflexivity|]. split; [apply gr_nil|exact H]. Qed.
Lemma nest_written n : written (pc_config [nest_section n] []) (nested (S n)) [].
Proof.
  exists 0.
  assert (E : nested (S n) = b "input{aa{aa=>" ++ repeat 91%N (S n) ++ repeat 93%N (S n) ++ b "}}") by reflexivity. rewrite E.
  assert (P : pc_config [nest_section n] [] =
    [PGap Top []; tok "input"; PHid; tok "{"; PGap Plain []; PTok (b "aa"); PHid; tok "{"; PGap Plain []; PTok (b "aa"); PHid; tok "=>"; PHid] ++
    pc_value (nest n (b "aa")) ++ [PGap Plain []; tok "}"; PGap Plain []; tok "}"; PGap Next []]).
  { unfold pc_config, pc_section, nest_section, pc_bop, pc_plugin. cbn [ps_com ps_type ps_bops ps_foot flat_map join]. rewrite nest_com. replace (Spelled.attr_name (nest n (b "aa"))) with (b "aa") by now destruct n.
    unfold arrow. rewrite ?app_nil_r, <- ?app_assoc. cbn [app]. rewrite <- ?app_assoc. cbn [app]. reflexivity. }
  rewrite P. apply written_app. exists (repeat 91%N (S n) ++ repeat 93%N (S n) ++ b "}}"). split.
  - set (X := repeat 91%N (S n) ++ repeat 93%N (S n) ++ b "}}").
    change (b "input{aa{aa=>" ++ X) with (b "input" ++ b "{" ++ b "aa" ++ b "{" ++ b "aa" ++ b "=>" ++ X). clearbody X.
    apply w_gap, w_tok, w_hid, w_tok, w_gap, w_tok, w_hid, w_tok, w_gap, w_tok, w_hid, w_tok, w_hid. reflexivity.
  - apply written_app. exists (b "}}"). split; [apply nest_value|]. change (b "}}") with (b "}" ++ b "}" ++ []). apply w_gap, w_tok, w_gap, w_tok, w_gap. reflexivity.
Qed.
Lemma shape_adep : forall a, adep (shape_attr a) = adep a.
Proof.
  fix F 1. intros [| | |p n l c f| |]; try reflexivity. cbn [shape_attr adep]. f_equal. f_equal. rewrite map_map. induction l as [|x l IH]; [reflexivity|]. cbn [map]. f_equal; [apply F|exact IH].
Qed.
Lemma shape_cdep c : cdep (shape_config c) = cdep c.
Proof.
  assert (A : forall l, list_max (map adep (map shape_attr l)) = list_max (map adep l)) by (intros l; rewrite map_map; f_equal; apply map_ext, shape_adep).
  assert (S : forall s, sdep (shape_section s) = sdep s).
  { intros s. unfold sdep. cbn [shape_section ps_bops]. rewrite map_map. f_equal. apply map_ext. intros [|[]|[]|]; try reflexivity; apply A. }
  unfold cdep. cbn [shape_config cf_input cf_filter cf_output]. rewrite <- !map_app, map_map. f_equal. now apply map_ext.
Qed.

(** Brackets nested [n + 1] deep are a configuration, and no stack of [n] calls has room
    for its parse. *)
Theorem C76_nested : forall n,
  (exists c ff, parse [] [] (nested (S n)) = (Returned (VConfig c) [], ff) /\ cdep c = S n) /\
  forall opts ff d k, k_entry (config_of opts) = "init"%string -> k_max (config_of opts) = 0%N -> d <= n -> parse_stack d k opts ff (nested (S n)) = None.
Proof.
  intros n.
  assert (W : name_ok (b "aa")).
  { left. split; [discriminate|]. constructor; [|constructor; [|constructor]]; left; left; right; left; split; discriminate. }
  assert (U : utf8_text (nested (S n))).
  { unfold nested. assert (R : forall x m, (x < 128)%N -> Forall (fun c => c < 128)%N (repeat x m)) by (intros x m L; apply Forall_forall; intros y I; apply repeat_spec in I; now subst y).
    apply utf8_ascii. apply Forall_app. split; [repeat constructor|]. apply Forall_app. split; [now apply R|]. apply Forall_app. split; [now apply R|repeat constructor]. }
  assert (WF : forall m, wf_attr false (nest m [])).
  { induction m as [|m IH]; cbn [nest wf_attr All named]; repeat split; try constructor; try exact IH. }
  assert (H : Forall (fun s => ps_type s <> PTUndef /\ All wf_bop (ps_bops s) /\ clear_section s) [nest_section n]).
  { constructor; [|constructor]. split; [discriminate|]. split.
    - cbn [nest_section ps_bops All wf_bop wf_plugin]. repeat split; try exact W; try constructor. destruct n as [|n]; cbn [nest wf_attr All]; repeat split; try exact W; try constructor. apply WF.
    - unfold clear_section. cbn [nest_section ps_bops All all_parted clear_bop]. repeat split. intros (t & E & _). discriminate E. }
  assert (G : forall opts ff, k_entry (config_of opts) = "init"%string -> k_max (config_of opts) = 0%N -> exists c ff', parse opts ff (nested (S n)) = (Returned (VConfig c) [], ff') /\ cdep c = S n).
  { intros opts ff He Hm. destruct (C57_reads_back opts ff [nest_section n] [] _ H (nest_written n) He Hm (or_introl U)) as (c & ff' & E & Sh).
    exists c, ff'. split; [exact E|]. rewrite <- shape_cdep, Sh.
    transitivity (list_max [list_max [list_max [adep (shape_attr (nest n (b "aa")))]]]); [reflexivity|].
    rewrite shape_adep, nest_dep, !max_cons. change (list_max []) with 0. lia. }
  split; [exact (G [] [] eq_refl eq_refl)|]. intros opts ff d k He Hm Hd.
  destruct (parse_stack d k opts ff (nested (S n))) as [r|] eqn:P; [exfalso|reflexivity]. destruct (G opts ff He Hm) as (c & ff' & E & D).
  pose proof (C76_same _ _ _ _ _ _ P) as ->. rewrite E in P. apply C76_nesting in P. lia.
Qed.
Print Assumptions C76_nested.

(** So no size of the stack is enough for all texts: for every size there is an accepted
    text, with two bytes for each nested call, whose parse does not fit. *)
Theorem C76_no_constant : forall d, exists data c ff',
  List.length data = 2 * d + 17 /\ parse [] [] data = (Returned (VConfig c) [], ff') /\
  forall k, parse_stack d k [] [] data = None.
Proof.
  intros d. destruct (C76_nested d) as [(c & ff' & E & _) N]. exists (nested (S d)), c, ff'. split; [|split; [exact E|]].
  - unfold nested. rewrite !app_length, !repeat_length. cbn [List.length b]. change (List.length (b "input{aa{aa=>")) with 13. change (List.length (b "}}")) with 2. lia.
  - intros k. now apply N.
Qed.
Print Assumptions C76_no_constant.

(** The hypotheses are met: two brackets; with MaxExpressions(50) the parse of any number
    of brackets fits into 52 calls (and ends in an error). *)
Example C76_case : nested 2 = b "input{aa{aa=>[[]]}}" /\ parse_stack 1 20 [] [] (nested 2) = None /\ (exists r, parse_stack 200 200 [] [] (nested 2) = Some r) /\
  (exists e ff, parse_stack 52 52 [OptMaxExpressions 50] [] (nested 100) = Some (Returned VNil [e], ff)).
Proof.
  split; [reflexivity|]. split; [vm_compute; reflexivity|]. split.
  - destruct (parse_stack 200 200 [] [] (nested 2)) as [r|] eqn:E; [eauto|]. vm_compute in E. discriminate E.
  - destruct (parse_stack 52 52 [OptMaxExpressions 50] [] (nested 100)) as [[r ff]|] eqn:E; vm_compute in E; [|discriminate E]. injection E as <- <-. eauto.
Qed.
