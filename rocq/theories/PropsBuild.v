(** Configurations built by a program with the constructors of package ast: C59. *)
From Coq Require Import List NArith ZArith QArith Bool String Arith Lia.
From Verif Require Import Bytes Utf8 F64 Ast Peg Actions Engine Parser AstPrint AstInd QuoteFacts EscapeFacts Utf8Facts HistFacts LexFacts
  Tree Lines NumPrint Layout Bare PrintBare ReadCom ReadVal ReadCond ReadBop ReadConf Comments Blank Regular RoundTrip Printable SimpleFacts ParseFacts Utf8Tree Build PropsRound.
Import ListNotations.

(** ** What a program may build *)
(** Every node is the result of a constructor; the arguments are texts and numbers of
    the configuration language.  [named nm n]: the attributes of a plugin are named,
    the values inside arrays and hashes are not (Tree.v).  [str_ok t v]: a string of
    kind [t] may have the value [v] (a quoted string without its own quote mark or with
    that mark escaped, Tree.v).  [pr_num v]: the number is one the printer can write
    (Layout.v; C39 and C40 say which these are). *)
Inductive built_key : hkey -> Prop :=
| bk_str v t : str_ok t v -> built_key (HKStr (new_string_attribute [] v t))
| bk_num v : pr_num v -> built_key (HKNum (new_number_attribute [] v)).
Inductive built_attr : bool -> attr -> Prop :=
| ba_str nm n v t : named nm n -> str_ok t v -> built_attr nm (AtStr (new_string_attribute n v t))
| ba_num nm n v : named nm n -> pr_num v -> built_attr nm (AtNum (new_number_attribute n v))
| ba_arr nm n l : named nm n -> built_attrs false l -> built_attr nm (new_array_attribute n l)
| ba_hash nm n l : named nm n -> built_entries l -> built_attr nm (new_hash_attribute n l)
| ba_plug n v : name_ok n -> built_plugin v -> built_attr true (new_plugin_attribute n v)
with built_attrs : bool -> list attr -> Prop :=
| bas_nil nm : built_attrs nm []
| bas_cons nm a l : built_attr nm a -> built_attrs nm l -> built_attrs nm (a :: l)
with built_entries : list hentry -> Prop :=
| be_nil : built_entries []
| be_cons k v l : built_key k -> built_attr false v -> built_entries l -> built_entries (new_hash_entry k v :: l)
with built_plugin : plugin -> Prop :=
| bp n l : name_ok n -> built_attrs true l -> built_plugin (new_plugin n l).

(** selectors and regular expressions with complete quotes, if any *)
Inductive built_sel : selector -> Prop :=
| bs names : names <> [] -> Forall (fun n => n <> [] /\ Forall (fun c => ~ In c [91; 93; 44]%N) n) names ->
    balanced (selector_string (new_selector_from_names names)) -> built_sel (new_selector_from_names names).
Inductive built_re : regexp -> Prop :=
| bre t : literal_value SLASH t -> balanced t -> built_re (new_regexp t).
(** an array of a condition must not read as a selector ([not_selector], Layout.v) *)
Inductive built_rvalue : rvalue -> Prop :=
| brv_str v t : str_ok t v -> t <> Bareword -> built_rvalue (RVStr (new_string_attribute [] v t))
| brv_num v : pr_num v -> built_rvalue (RVNum (new_number_attribute [] v))
| brv_sel s : built_sel s -> built_rvalue (RVSel s)
| brv_arr l : built_attrs false l -> not_selector l [] -> built_rvalue (new_array_rvalue [] l)
| brv_re r : built_re r -> built_rvalue (RVRe r).
Inductive built_strorre : strorre -> Prop :=
| bsr_str v t : str_ok t v -> t <> Bareword -> built_strorre (SRStr (new_string_attribute [] v t))
| bsr_re r : built_re r -> built_strorre (SRRe r).
(** the operator of an expression: none for the first of a condition, one for the others *)
Definition operator (first : bool) (o : boolop) : Prop :=
  if first then o = BoNone else In o [BoAnd; BoOr; BoXor; BoNand].
Notation bool_operator o := (BoolOp o zero_pos).
Inductive built_expr : bool -> cexpr -> Prop :=
| bx_cond first o c : operator first o -> built_cond c -> built_expr first (new_condition_expression (bool_operator o) c)
| bx_neg first o c : operator first o -> built_cond c -> built_expr first (new_negative_condition_expression (bool_operator o) c)
| bx_negsel first o s : operator first o -> built_sel s -> built_expr first (new_negative_selector_expression (bool_operator o) s)
| bx_in first o l r : operator first o -> built_rvalue l -> built_rvalue r -> built_expr first (new_in_expression (bool_operator o) l r)
| bx_notin first o l r : operator first o -> built_rvalue l -> built_rvalue r -> built_expr first (new_not_in_expression (bool_operator o) l r)
| bx_rv first o r : operator first o -> built_rvalue r -> built_expr first (new_rvalue_expression (bool_operator o) r)
| bx_cmp first o l k r : operator first o -> built_rvalue l -> In k [CoEq; CoNe; CoLe; CoGe; CoLt; CoGt] -> built_rvalue r ->
    built_expr first (new_compare_expression (bool_operator o) l (CmpOp k zero_pos) r)
| bx_re first o l k r : operator first o -> built_rvalue l -> In k [RoMatch; RoNotMatch] -> built_strorre r ->
    built_expr first (new_regexp_expression (bool_operator o) l (ReOp k zero_pos) r)
with built_exprs : list cexpr -> Prop :=
| bxs_nil : built_exprs []
| bxs_cons e l : built_expr false e -> built_exprs l -> built_exprs (e :: l)
with built_cond : condition -> Prop :=
| bc e l : built_expr true e -> built_exprs l -> built_cond (new_condition (e :: l)).

(** plugins and branches: a plugin is not called [if5], nor [else] or [elseif5] right
    after a branch without else block ([if_like], [apart], Layout.v) *)
Inductive built_bop : bop -> Prop :=
| bb_plugin n l : name_ok n -> ~ if_like n -> built_attrs true l -> built_bop (BPlugin (new_plugin n l))
| bb_branch c l es le : built_cond c -> built_bops l -> built_elseifs es -> built_bops le ->
    built_bop (new_branch (new_if_block c l) (new_else_block le) es)
with built_elseifs : list ifblock -> Prop :=
| bei_nil : built_elseifs []
| bei_cons c l es : built_cond c -> built_bops l -> built_elseifs es -> built_elseifs (new_else_if_block c l :: es)
with built_bops : list bop -> Prop :=
| bbs l : built_list l -> apart l -> built_bops l
with built_list : list bop -> Prop :=
| bl_nil : built_list []
| bl_cons x l : built_bop x -> built_list l -> built_list (x :: l).
Inductive built_section : section -> Prop :=
| bsec t l : built_bops l -> built_section (new_plugin_section t l).
Inductive built_config : config -> Prop :=
| bcfg i f o : Forall built_section i -> Forall built_section f -> Forall built_section o -> built_config (new_config i f o).

(** The kind of a section is decided by the place it has in the configuration, not by
    its field PluginType. *)
Definition of_kind (t : ptype) (s : section) : section := Section_ (ps_pos s) t (ps_bops s) (ps_com s) (ps_foot s).
Definition placed (c : config) : config :=
  Config (map (of_kind PTInput) (cf_input c)) (map (of_kind PTFilter) (cf_filter c)) (map (of_kind PTOutput) (cf_output c)) (cf_foot c) (cf_warnings c).

(** ** Proof *)
Scheme battr_m := Minimality for built_attr Sort Prop
  with battrs_m := Minimality for built_attrs Sort Prop
  with bentries_m := Minimality for built_entries Sort Prop
  with bplugin_m := Minimality for built_plugin Sort Prop.
Combined Scheme battr_ind4 from battr_m, battrs_m, bentries_m, bplugin_m.
Scheme bexpr_m := Minimality for built_expr Sort Prop
  with bexprs_m := Minimality for built_exprs Sort Prop
  with bcond_m := Minimality for built_cond Sort Prop.
Combined Scheme bexpr_ind3 from bexpr_m, bexprs_m, bcond_m.
Scheme bbop_m := Minimality for built_bop Sort Prop
  with belse_m := Minimality for built_elseifs Sort Prop
  with bbops_m := Minimality for built_bops Sort Prop
  with blist_m := Minimality for built_list Sort Prop.
Combined Scheme bbop_ind4 from bbop_m, belse_m, bbops_m, blist_m.

Lemma com_nil : com_ok []. Proof. constructor. Qed.
Lemma key_pr k : built_key k -> pr_key k.
Proof. intros [v t H|v H]; cbn; repeat split; auto; apply H. Qed.
Lemma attrs_pr : (forall nm a, built_attr nm a -> pr_attr nm a /\ attr_com a = []) /\ (forall nm l, built_attrs nm l -> All (pr_attr nm) l) /\
  (forall l, built_entries l -> All pr_hentry l) /\ (forall x, built_plugin x -> pr_plugin x /\ match x with Plugin _ _ _ vc _ => vc = [] end).
Proof.
  pose proof com_nil as C0.
  apply battr_ind4; intros; cbn [new_string_attribute new_number_attribute new_array_attribute new_hash_attribute new_plugin_attribute new_plugin new_hash_entry
    pr_attr pr_hentry pr_plugin attr_com sa_name sa_val sa_type sa_com na_name na_val na_com All]; try tauto.
  match goal with H : built_key _ |- _ => apply key_pr in H end. tauto.
Qed.
Lemma sel_pr s : built_sel s -> pr_sel s.
Proof.
  intros [names H1 H2 H3]. split; [|exact H3]. unfold new_selector_from_names, new_selector, sel_ok. cbn [sel_els]. split; [destruct names; [congruence|discriminate]|].
  apply All_Forall, Forall_map. exact H2.
Qed.
Lemma re_pr r : built_re r -> pr_re r. Proof. intros [t H1 H2]. now split. Qed.
Lemma str_pr v t : str_ok t v -> t <> Bareword -> cstr_ok (new_string_attribute [] v t).
Proof. intros H K. unfold cstr_ok. cbn. auto. Qed.
Lemma rvalue_pr r : built_rvalue r -> pr_rvalue r.
Proof.
  intros [v t H K|v H|s H|l H K|r' H].
  - now apply str_pr.
  - unfold new_number_attribute. cbn [pr_rvalue na_name na_val na_com]. auto.
  - now apply sel_pr.
  - unfold new_array_rvalue. cbn [pr_rvalue]. apply (proj1 (proj2 attrs_pr)) in H. pose proof com_nil. tauto.
  - now apply re_pr.
Qed.
Lemma strorre_pr r : built_strorre r -> pr_strorre r.
Proof. intros [v t H K|r' H]; [now apply str_pr|now apply re_pr]. Qed.
Lemma operator_ok first o : operator first o -> bo_ok first (BoolOp o zero_pos).
Proof. destruct first; cbn; [auto|]. intros [<-|[<-|[<-|[<-|[]]]]]; split; discriminate. Qed.
Lemma exprs_pr : (forall first e, built_expr first e -> pr_cexpr first e) /\ (forall l, built_exprs l -> All (pr_cexpr false) l) /\ (forall c, built_cond c -> pr_cond c).
Proof.
  apply bexpr_ind3; intros; repeat match goal with
    | H : operator _ _ |- _ => apply operator_ok in H
    | H : built_rvalue _ |- _ => apply rvalue_pr in H
    | H : built_sel _ |- _ => apply sel_pr in H
    | H : built_strorre _ |- _ => apply strorre_pr in H end;
  unfold new_condition_expression, new_negative_condition_expression, new_negative_selector_expression, new_in_expression, new_not_in_expression, new_rvalue_expression,
    new_compare_expression, new_regexp_expression, new_condition; cbn [pr_cexpr pr_cond All co_op ro_op]; try tauto.
  - split; [assumption|]. split; [assumption|]. split; [|assumption]. intros ->. cbn in *. intuition discriminate.
  - split; [assumption|]. split; [assumption|]. split; [|assumption]. intros ->. cbn in *. intuition discriminate.
Qed.
Lemma bops_pr : (forall x, built_bop x -> pr_bop x) /\ (forall l, built_elseifs l -> All pr_if l) /\ (forall l, built_bops l -> All pr_bop l /\ apart l) /\ (forall l, built_list l -> All pr_bop l).
Proof.
  pose proof com_nil as C0. pose proof (proj2 (proj2 exprs_pr)) as PC. pose proof (proj1 (proj2 attrs_pr)) as PA.
  apply bbop_ind4; intros; unfold new_branch, new_if_block, new_else_block, new_else_if_block, new_plugin; cbn [pr_bop pr_if pr_else All];
    repeat match goal with H : built_cond _ |- _ => apply PC in H | H : built_attrs _ _ |- _ => apply PA in H end; try tauto.
  unfold pr_item. cbn [pr_plugin pname]. tauto.
Qed.
Lemma section_pr t s : built_section s -> pr_section t (of_kind t s).
Proof.
  intros [t' l H]. unfold pr_section, of_kind, new_plugin_section. cbn [ps_type ps_com ps_foot ps_bops]. pose proof com_nil. apply (proj1 (proj2 (proj2 bops_pr))) in H. tauto.
Qed.
Lemma built_printable c : built_config c -> printable (placed c).
Proof.
  assert (S : forall t l, Forall built_section l -> All (pr_section t) (map (of_kind t) l)).
  { intros t l F. apply All_Forall, Forall_map. eapply Forall_impl; [|exact F]. intros s. apply section_pr. }
  intros [i f o Hi Hf Ho]. unfold printable, placed, new_config. cbn [cf_input cf_filter cf_output cf_foot]. repeat apply conj; auto using com_nil.
Qed.
Lemma placed_string c : config_string (placed c) = config_string c.
Proof.
  assert (S : forall k t l, sections_string k (map (of_kind t) l) = sections_string k l).
  { intros k t l. unfold sections_string. rewrite map_map. f_equal. now destruct l as [|s0 l]. }
  unfold config_string, placed. cbn [cf_input cf_filter cf_output cf_foot]. now rewrite !S.
Qed.
(** forgetting positions and changing comments does nothing to what was built *)
Section Same.
  Variable f : spot -> cblock -> cblock.
  Hypothesis f0 : forall k, f k [] = [].
  Lemma g_list_id {A} (h : spot -> A -> A) l : (forall k, map (h k) l = l) -> g_list h l = l.
  Proof. destruct l as [|x l]; [reflexivity|]. intros H. cbn [g_list]. f_equal; [specialize (H First)|specialize (H Later)]; cbn [map] in H; congruence. Qed.
  Lemma g_str_new k n v t : g_str f k (StrAttr zero_pos n v t []) = StrAttr zero_pos n v t [].
  Proof. unfold g_str. cbn. now rewrite f0. Qed.
  Lemma g_num_new k n v : g_num f k (NumAttr zero_pos n v []) = NumAttr zero_pos n v [].
  Proof. unfold g_num. cbn. now rewrite f0. Qed.
  Lemma g_key_id k : built_key k -> g_key f k = k.
  Proof. intros [v t H|v H]; cbn; unfold g_str, g_num; cbn; now rewrite f0. Qed.
  Lemma g_attrs_id : (forall nm a, built_attr nm a -> forall k, g_attr f k a = a) /\ (forall nm l, built_attrs nm l -> forall k, map (g_attr f k) l = l) /\
    (forall l, built_entries l -> forall k, map (g_hentry f k) l = l) /\ (forall x, built_plugin x -> g_plugin f x = x).
  Proof.
    apply battr_ind4; intros; unfold new_string_attribute, new_number_attribute, new_array_attribute, new_hash_attribute, new_plugin_attribute, new_plugin, new_hash_entry in *;
      cbn [g_attr g_hentry g_plugin map]; rewrite ?g_str_new, ?g_num_new, ?f0, ?g_list_id by assumption; try congruence.
    - change (AtPlug zero_pos n (g_plugin f v) [] = AtPlug zero_pos n v []). congruence.
    - change (HEntry zero_pos (g_key f k) (g_attr f First v) [] :: map (g_hentry f k0) l = HEntry zero_pos k v [] :: l). rewrite g_key_id by assumption. congruence.
  Qed.
  Lemma bare_sel_id s : built_sel s -> bare_sel s = s.
  Proof. intros [names _ _ _]. unfold bare_sel, new_selector_from_names, new_selector. cbn [sel_els]. rewrite map_map. reflexivity. Qed.
  Lemma bare_re_id r : built_re r -> bare_re r = r. Proof. now intros [t _ _]. Qed.
  Lemma g_rvalue_id r : built_rvalue r -> g_rvalue f r = r.
  Proof.
    intros [v t H K|v H|s H|l H K|r' H]; cbn [g_rvalue new_array_rvalue]; unfold g_str, g_num; cbn [new_string_attribute new_number_attribute sa_name sa_val sa_type sa_com na_name na_val na_com]; rewrite ?f0; try reflexivity.
    - now rewrite bare_sel_id.
    - rewrite g_list_id; [reflexivity|]. exact (proj1 (proj2 g_attrs_id) _ _ H).
    - now rewrite bare_re_id.
  Qed.
  Lemma g_strorre_id r : built_strorre r -> g_strorre f r = r.
  Proof.
    intros [v t H K|r' H]; cbn [g_strorre]; unfold g_str; cbn [new_string_attribute sa_name sa_val sa_type sa_com]; [now rewrite f0|now rewrite bare_re_id].
  Qed.
  Lemma g_exprs_id : (forall first e, built_expr first e -> g_cexpr f e = e) /\ (forall l, built_exprs l -> map (g_cexpr f) l = l) /\ (forall c, built_cond c -> g_cond f c = c).
  Proof.
    apply bexpr_ind3; intros; unfold new_condition_expression, new_negative_condition_expression, new_negative_selector_expression, new_in_expression, new_not_in_expression, new_rvalue_expression,
    new_compare_expression, new_regexp_expression, new_condition in *; cbn [g_cexpr g_cond map]; unfold bare_bo, bare_co, bare_ro; cbn [bo_op co_op ro_op];
    rewrite ?g_rvalue_id, ?g_strorre_id, ?bare_sel_id by assumption; try congruence.
    - change (ExCond zero_pos (BoolOp o zero_pos) (g_cond f c) = ExCond zero_pos (BoolOp o zero_pos) c). congruence.
    - change (ExNeg zero_pos (BoolOp o zero_pos) (g_cond f c) = ExNeg zero_pos (BoolOp o zero_pos) c). congruence.
    - change (Cond (g_cexpr f e :: map (g_cexpr f) l) = Cond (e :: l)). congruence.
  Qed.
  Lemma g_bops_id : (forall x, built_bop x -> g_bop f x = x) /\ (forall l, built_elseifs l -> map (g_if f) l = l) /\ (forall l, built_bops l -> map (g_bop f) l = l) /\ (forall l, built_list l -> map (g_bop f) l = l).
  Proof.
    pose proof (proj2 (proj2 g_exprs_id)) as PC. pose proof (proj1 (proj2 g_attrs_id)) as PA.
    apply bbop_ind4; intros; unfold new_branch, new_if_block, new_else_block, new_else_if_block, new_plugin in *; cbn [g_bop g_if g_else map g_plugin];
      rewrite ?f0, ?PC, ?g_list_id by eauto; try congruence.
    - change (BBranch (IfB zero_pos c (map (g_bop f) l) [] []) (map (g_if f) es) (ElB zero_pos (map (g_bop f) le) [] []) =
        BBranch (IfB zero_pos c l [] []) es (ElB zero_pos le [] [])). congruence.
    - change (IfB zero_pos c (map (g_bop f) l) [] [] :: map (g_if f) es = IfB zero_pos c l [] [] :: es). congruence.
  Qed.
End Same.
Lemma re_built t s : built_section s -> re_section (of_kind t s) [] = of_kind t s.
Proof.
  intros [t' l H]. rewrite re_is_section. unfold of_kind, new_plugin_section. cbn [ps_type ps_com ps_foot ps_bops ps_pos].
  rewrite (proj1 (proj2 (proj2 (g_bops_id rc_at ltac:(now intros []))))) by exact H. reflexivity.
Qed.
Lemma re_secs_built t first l : Forall built_section l -> re_secs first (map (of_kind t) l) = map (of_kind t) l.
Proof.
  intros F. destruct l as [|s l]; [reflexivity|]. inversion F as [|x y Hs Hl]; subst. cbn [map re_secs].
  assert (C : shared_com (of_kind t s :: map (of_kind t) l) = []) by now destruct Hs. rewrite C. f_equal.
  - replace (if first then first_com [] else norm []) with (@nil comment) by now destruct first. now apply re_built.
  - rewrite map_map. apply map_ext_in. intros x I. apply re_built. exact (proj1 (Forall_forall _ _) Hl x I).
Qed.
Lemma reread_built c : built_config c -> reread (placed c) = placed c.
Proof.
  intros [i f o Hi Hf Ho]. unfold reread, placed, new_config. cbn [cf_input cf_filter cf_output cf_foot cf_warnings]. now rewrite !re_secs_built.
Qed.
Lemma placed_texts c : texts_config (placed c) = texts_config c.
Proof.
  assert (S : forall t l, flat_map section_texts (map (of_kind t) l) = flat_map section_texts l).
  { intros t l. induction l as [|s l IH]; [reflexivity|]. cbn [map flat_map]. now rewrite IH. }
  unfold texts_config, sections, placed. cbn [cf_input cf_filter cf_output cf_foot]. now rewrite !flat_map_app, !S.
Qed.

(** ** C59: what a program built is what the parser reads from its String() *)
(** All texts the program used are valid UTF-8, or the parser is told to accept others.
    [bare_config] sets the positions, which the built nodes do not have, to zero. *)
Theorem C59_built_reads_back : forall opts ff c, built_config c -> plain_options opts ->
  Forall utf8_text (texts_config c) \/ k_invalid (config_of opts) = true ->
  exists c' ff', parse opts ff (config_string c) = (Returned (VConfig c') [], ff') /\
    bare_config (drop_warnings c') = placed c.
Proof.
  intros opts ff c B (O1 & O2 & O3) U. pose proof (built_printable c B) as P.
  assert (R : utf8_text (config_string (placed c)) \/ k_invalid (config_of opts) = true).
  { destruct U as [U|U]; [left; apply printed_utf8; [exact P|now rewrite placed_texts]|now right]. }
  destruct (parse_printed opts ff (placed c) P O1 O2 O3 R) as (c' & ff' & E & X). rewrite placed_string in E. rewrite (reread_built c B) in X. eauto.
Qed.
Print Assumptions C59_built_reads_back.
(** The text determines what was built: two built configurations with the same String()
    are the same (sections of a kind in the wrong place apart). *)
Theorem C59_string_injective : forall c1 c2, built_config c1 -> built_config c2 ->
  config_string c1 = config_string c2 -> placed c1 = placed c2.
Proof.
  intros c1 c2 B1 B2 E. assert (O : plain_options [OptAllowInvalidUTF8 true]) by repeat split.
  destruct (C59_built_reads_back _ [] c1 B1 O) as (d1 & f1 & E1 & X1); [now right|].
  destruct (C59_built_reads_back _ [] c2 B2 O) as (d2 & f2 & E2 & X2); [now right|].
  rewrite E in E1. rewrite E1 in E2. assert (d1 = d2) by congruence. congruence.
Qed.
Print Assumptions C59_string_injective.
(** Sections built for their own place come back with their own kind. *)
Theorem C59_own_place : forall opts ff i f o, built_config (new_config i f o) ->
  Forall (fun s => ps_type s = PTInput) i -> Forall (fun s => ps_type s = PTFilter) f -> Forall (fun s => ps_type s = PTOutput) o ->
  plain_options opts -> Forall utf8_text (texts_config (new_config i f o)) \/ k_invalid (config_of opts) = true ->
  exists c' ff', parse opts ff (config_string (new_config i f o)) = (Returned (VConfig c') [], ff') /\
    bare_config (drop_warnings c') = new_config i f o.
Proof.
  intros opts ff i f o B Hi Hf Ho O U. destruct (C59_built_reads_back opts ff _ B O U) as (c' & ff' & E & X). exists c', ff'. split; [exact E|]. rewrite X.
  assert (S : forall t l, Forall (fun s => ps_type s = t) l -> map (of_kind t) l = l).
  { intros t l F. induction F as [|s l Hs _ IH]; [reflexivity|]. cbn [map]. rewrite IH. f_equal. destruct s. cbn in Hs. now subst. }
  unfold placed, new_config. cbn [cf_input cf_filter cf_output cf_foot cf_warnings]. now rewrite !S.
Qed.
(** Numbers a program may use: every integer of at most 2^53 in magnitude (by C39), and
    every other float64 that C40 covers. *)

(** ** What the constructors mean, seen in the text *)
(** The arguments of a constructor stand in the text of the node in the order and in the places that the
    configuration language has for them; [x], [y] are the texts of the values. *)
Definition op_word (o : boolop) : bytes :=
  match o with BoNone => [] | BoAnd => b " and " | BoOr => b " or " | BoNand => b " nand " | BoXor => b " xor " | BoUndef => b "undefined boolean operator" end.
Theorem C59_texts_expressions : forall bo c s l r k m t x y,
  rvalue_string l = Some x -> rvalue_string r = Some y ->
  let o := op_word (bo_op bo) in
  cexpr_string (new_condition_expression bo c) = o ++ b "(" ++ cond_string c ++ b ")" /\
  cexpr_string (new_negative_condition_expression bo c) = o ++ b "!(" ++ cond_string c ++ b ")" /\
  cexpr_string (new_negative_selector_expression bo s) = o ++ b "!" ++ selector_string s /\
  cexpr_string (new_in_expression bo l r) = o ++ x ++ b " in " ++ y /\
  cexpr_string (new_not_in_expression bo l r) = o ++ x ++ b " not in " ++ y /\
  cexpr_string (new_rvalue_expression bo r) = o ++ y /\
  cexpr_string (new_compare_expression bo l k r) = o ++ x ++ b " " ++ cmpop_string (co_op k) ++ b " " ++ y /\
  cexpr_string (new_regexp_expression bo l m t) = o ++ x ++ b " " ++ reop_string (ro_op m) ++ b " " ++ strorre_string t.
Proof.
  intros bo c s l r k m t x y X Y o. unfold o. clear o.
  assert (W : op_word (bo_op bo) = boolop_string (bo_op bo)) by (destruct bo as [[] ?]; reflexivity). rewrite W.
  unfold new_condition_expression, new_negative_condition_expression, new_negative_selector_expression, new_in_expression, new_not_in_expression,
    new_rvalue_expression, new_compare_expression, new_regexp_expression. cbn [cexpr_string]. rewrite X, Y. cbn [or_empty].
  repeat match goal with |- _ /\ _ => split end; reflexivity.
Qed.
Print Assumptions C59_texts_expressions.
Theorem C59_texts_values : forall n v t names l es k x w,
  sa_value_string (new_string_attribute n v DoubleQuoted) = [DQ] ++ v ++ [DQ] /\
  sa_value_string (new_string_attribute n v SingleQuoted) = [SQ] ++ v ++ [SQ] /\
  sa_value_string (new_string_attribute n v Bareword) = v /\
  regexp_string (new_regexp t) = b "/" ++ t ++ b "/" /\
  selector_string (new_selector_from_names names) = List.concat (map (fun m => b "[" ++ m ++ b "]") names) /\
  cond_string (new_condition es) = List.concat (map cexpr_string es) /\
  hentry_string (new_hash_entry k x) = hkey_string k ++ b " => " ++ attr_value x /\
  attr_string (new_plugin_attribute n w) = n ++ b " => " ++ plugin_string w /\
  attr_string (AtNum (new_number_attribute n l)) = n ++ b " => " ++ attr_value (AtNum (new_number_attribute [] l)) /\
  attr_string (AtStr (new_string_attribute n v DoubleQuoted)) = n ++ b " => " ++ [DQ] ++ v ++ [DQ].
Proof.
  intros. repeat match goal with |- _ /\ _ => split end; try reflexivity.
  - cbn. now rewrite app_nil_r.
  - unfold selector_string. rewrite flat_map_concat_map. cbn [sel_els new_selector_from_names new_selector]. now rewrite map_map.
  - cbn [cond_string new_condition]. apply flat_map_concat_map.
Qed.
Print Assumptions C59_texts_values.
(** [body l]: the plugins and branches of a block, indented between brackets (C36 says how) *)
Definition body (l : list bop) : bytes := b "{" ++ prefix (section_string (new_plugin_section PTUndef l) ++ nl_if (section_string (new_plugin_section PTUndef l))) true ++ b "}".
Theorem C59_texts_blocks : forall c l x le es t i f o text space cs,
  bop_string (new_branch (new_if_block c l) (new_else_block (x :: le)) es) =
    b "if " ++ cond_string c ++ b " " ++ body l ++ List.concat (map elseif_string es) ++ b " else " ++ body (x :: le) /\
  bop_string (new_branch (new_if_block c l) (new_else_block []) es) = b "if " ++ cond_string c ++ b " " ++ body l ++ List.concat (map elseif_string es) /\
  elseif_string (new_else_if_block c l) = b " else if " ++ cond_string c ++ b " " ++ body l /\
  config_string (new_config i f o) = sections_string (b "input") i ++ sections_string (b "filter") f ++ sections_string (b "output") o /\
  new_plugin_sections t l = [new_plugin_section t l] /\ ps_type (new_plugin_section t l) = t /\ ps_bops (new_plugin_section t l) = l /\
  comment_string (new_comment text space) = (if space then [NL] else []) ++ b "# " ++ text ++ [NL] /\
  cblock_string (new_comment_block cs) = List.concat (map comment_string cs).
Proof.
  intros. unfold new_branch, new_if_block, new_else_block, new_else_if_block.
  assert (B : forall l, block_text (flat_map (fun y => match y with BNil => [] | _ => [bop_string y] end) l) [] = body l).
  { intros k. unfold block_text, body, section_string, bop_texts. cbn [ps_bops new_plugin_section cblock_string flat_map]. now rewrite app_nil_r. }
  repeat match goal with |- _ /\ _ => split end; try reflexivity; cbn [bop_string elseif_string]; rewrite ?B, ?flat_map_concat_map, ?app_nil_r; try reflexivity.
  - unfold config_string, new_config. cbn [cf_input cf_filter cf_output cf_foot]. change (cblock_string []) with (@nil N). now rewrite app_nil_r.
  - apply flat_map_concat_map.
Qed.
Print Assumptions C59_texts_blocks.

(** ** A configuration built with most constructors *)
Definition sa (n v : string) : attr := AtStr (new_string_attribute (b n) (b v) DoubleQuoted).
Definition na (n : string) (t : string) : attr :=
  AtNum (new_number_attribute (b n) (match parse_float (b t) with Some v => v | None => Fin false 0 0 end)).
Definition field (l : list string) : rvalue := RVSel (new_selector_from_names (map b l)).
Definition text (v : string) : rvalue := RVStr (new_string_attribute [] (b v) SingleQuoted).
Definition built_sample : config := Eval vm_compute in
  new_config
    (new_plugin_sections PTInput [BPlugin (new_plugin (b "stdin") [sa "id" "one two"; new_plugin_attribute (b "codec") (new_plugin (b "json") [])])])
    (new_plugin_sections PTFilter
      [new_branch
        (new_if_block (new_condition
          [new_compare_expression (BoolOp BoNone zero_pos) (field ["a"; "b"]%string) (CmpOp CoGe zero_pos) (RVNum (new_number_attribute [] (match parse_float (b "-12.5") with Some v => v | None => Fin false 0 0 end)));
           new_negative_condition_expression (BoolOp BoAnd zero_pos) (new_condition
             [new_regexp_expression (BoolOp BoNone zero_pos) (field ["msg"]%string) (ReOp RoMatch zero_pos) (SRRe (new_regexp (b "^a+$")));
              new_not_in_expression (BoolOp BoXor zero_pos) (text "x") (new_array_rvalue [] [sa "" "y"; sa "" "z"])])])
          [BPlugin (new_plugin (b "mutate") [new_hash_attribute (b "add") [new_hash_entry (HKStr (new_string_attribute [] (b "k y") SingleQuoted)) (new_array_attribute [] [sa "" "v"; na "" "7"])]])])
        (new_else_block [BPlugin (new_plugin (b "drop") [])])
        [new_else_if_block (new_condition [new_negative_selector_expression (BoolOp BoNone zero_pos) (new_selector_from_names [b "t"])]) [];
         new_else_if_block (new_condition [new_in_expression (BoolOp BoNone zero_pos) (text "q") (field ["r"]%string); new_rvalue_expression (BoolOp BoNand zero_pos) (field ["s"]%string)]) []]])
    (new_plugin_sections PTOutput [BPlugin (new_plugin (b "stdout") [])] ++ new_plugin_sections PTOutput []).
Definition built_opts : list popt := [].
Ltac done := solve [reflexivity | discriminate | cbn; tauto | cbn; auto
  | apply strb_iff; vm_compute; reflexivity | apply numb_iff; vm_compute; reflexivity | apply nameb_iff; vm_compute; reflexivity
  | apply namedb_iff; vm_compute; reflexivity | apply notselb_iff; vm_compute; reflexivity | apply apartb_iff; vm_compute; reflexivity
  | apply (proj1 (balb_iff _)); vm_compute; reflexivity
  | match goal with |- literal_value _ ?t => change (re_ok (new_regexp t)); apply (proj1 (reb_iff _)); vm_compute; reflexivity end
  | intros IFL; apply ifnameb_iff in IFL; vm_compute in IFL; discriminate IFL ].
Lemma built_sample_ok : built_config built_sample.
Proof.
  unfold built_sample. repeat (first [done | match goal with |- built_sel (Sel _ ?l) => let n := eval vm_compute in (map se_name l) in apply (bs n) end | constructor]); intros NI; cbn in NI; intuition discriminate.
Qed.
Example C59_case : exists c' ff', parse [] [] (config_string built_sample) = (Returned (VConfig c') [], ff') /\ bare_config (drop_warnings c') = built_sample.
Proof.
  destruct (C59_built_reads_back [] [] built_sample built_sample_ok default_plain) as (c' & ff' & E & X).
  { left. apply Forall_forall. intros t I. apply ascii_utf8. revert t I. apply Forall_forall. vm_compute. repeat constructor. }
  exists c', ff'. split; [exact E|]. rewrite X. reflexivity.
Qed.
(** ** What is not built that way *)
(** An array of one value in a condition is read as a field selector. *)
Definition one_element : config := Eval vm_compute in
  new_config [] (new_plugin_sections PTFilter
    [new_branch (new_if_block (new_condition [new_in_expression (BoolOp BoNone zero_pos) (text "x") (new_array_rvalue [] [sa "" "y"])]) []) (new_else_block []) []]) [].
Definition one_element_again : config := Eval vm_compute in the_config (config_string one_element).
Theorem C59_array_refuted : fst (parse [] [] (config_string one_element)) = Returned (VConfig one_element_again) [] /\
  exists name, bare_config one_element_again =
  new_config [] (new_plugin_sections PTFilter
    [new_branch (new_if_block (new_condition [new_in_expression (BoolOp BoNone zero_pos) (text "x") (RVSel (new_selector_from_names [name]))]) []) (new_else_block []) []]) [].
Proof. split; [vm_compute; reflexivity|]. eexists. vm_compute. reflexivity. Qed.
(** A section in the place of another kind changes its kind. *)
Definition misplaced : config := new_config (new_plugin_sections PTOutput []) [] [].
Definition misplaced_again : config := Eval vm_compute in the_config (config_string misplaced).
Theorem C59_kind_refuted : exists c', fst (parse [] [] (config_string misplaced)) = Returned (VConfig c') [] /\ map ps_type (cf_input c') = [PTInput] /\ map ps_type (cf_input misplaced) = [PTOutput].
Proof. exists misplaced_again. repeat split; vm_compute; reflexivity. Qed.
(** An operator in the first expression is printed, and then not read. *)
Definition first_and : config :=
  new_config [] (new_plugin_sections PTFilter
    [new_branch (new_if_block (new_condition [new_rvalue_expression (BoolOp BoAnd zero_pos) (field ["a"]%string)]) []) (new_else_block []) []]) [].
Theorem C59_operator_refuted : exists v es, fst (parse [] [] (config_string first_and)) = Returned v es /\ es <> [].
Proof. vm_compute. eexists _, _. split; [reflexivity|discriminate]. Qed.
