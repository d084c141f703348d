(** Printing and reading back: C12, C14, C36, C37. *)
From Coq Require Import List NArith Bool String Arith Lia.
From Verif Require Import Bytes Utf8 F64 Ast Peg Actions Engine Parser Regex AstPrint AstInd QuoteFacts EscapeFacts Utf8Facts HistFacts LexFacts
  Tree Lines NumPrint Layout Bare PrintBare ReadCom ReadVal ReadCond ReadBop ReadConf Comments Blank Regular RoundTrip Printable SimpleFacts ParseFacts.
Import ListNotations.

(** ** C12: parsing a printed configuration gives the configuration back *)
(** [printable] (Layout.v) says which trees can be written in the configuration language:
    names, strings, comments and numbers that the language can express, a condition in
    every if, no nil values.  [plain_config] (Comments.v) removes positions and the
    blank-line flags of comments, and nothing else. *)

(** Options of a program that formats: the entry rule of a configuration, no
    limit on the number of expressions, comments kept. *)
Definition plain_options (opts : list popt) : Prop :=
  k_entry (config_of opts) = "init"%string /\ k_max (config_of opts) = 0%N /\ k_ignore (config_of opts) = false.
Definition readable (opts : list popt) (text : bytes) : Prop := utf8_text text \/ k_invalid (config_of opts) = true.
(** The sections of one kind carry the same comments. *)
Definition alike (l : list section) : Prop :=
  forall s t, In s l -> In t l -> map c_text (ps_com s) = map c_text (ps_com t).
Definition alike_config (c : config) : Prop := alike (cf_input c) /\ alike (cf_filter c) /\ alike (cf_output c).
(** In general every section prints with the comments of the first one of its kind. *)
Definition with_com (com : cblock) (s : section) : section := Section_ (ps_pos s) (ps_type s) (ps_bops s) com (ps_foot s).
Definition shared (l : list section) : list section := match l with [] => [] | s :: _ => map (with_com (ps_com s)) l end.
Definition shared_config (c : config) : config :=
  Config (shared (cf_input c)) (shared (cf_filter c)) (shared (cf_output c)) (cf_foot c) (cf_warnings c).

Definition flat (_ : spot) : cblock -> cblock := map text_only.
Lemma flat_texts c c' : map c_text c = map c_text c' -> map text_only c = map text_only c'.
Proof. intros E. apply (f_equal (map (fun t => Comment t false false))) in E. rewrite !map_map in E. exact E. Qed.
Lemma plain_bare c : plain_config (bare_config c) = plain_config c.
Proof. rewrite bare_is_config. unfold plain_config. now apply gc_config. Qed.
Lemma plain_re_bops l : map (g_bop flat) (map (g_bop rc_at) l) = map (g_bop flat) l.
Proof. rewrite map_map. apply map_ext. intros x. apply gc_bop. intros k c. apply flat_texts, rc_texts. Qed.
Lemma plain_re_secs first l : map (g_section flat) (re_secs first l) = map (g_section flat) (shared l).
Proof.
  assert (P : forall s com com', map c_text com = map c_text com' -> g_section flat (re_section s com) = g_section flat (with_com com' s)).
  { intros s com com' E. rewrite re_is_section. unfold g_section, with_com. cbn [ps_type ps_bops ps_com ps_foot]. rewrite plain_re_bops. f_equal; apply flat_texts; [exact E|apply norm_texts]. }
  destruct l as [|s l]; [reflexivity|]. cbn [re_secs shared map shared_com]. f_equal.
  - apply P. destruct first; [apply first_com_texts|apply norm_texts].
  - rewrite !map_map. apply map_ext. intros t. apply P, norm_texts.
Qed.
Lemma plain_reread c : plain_config (reread c) = plain_config (drop_warnings (shared_config c)).
Proof.
  unfold plain_config, g_config, reread, drop_warnings, shared_config. cbn [cf_input cf_filter cf_output cf_foot cf_warnings]. change (fun _ => map text_only) with flat.
  rewrite !plain_re_secs. f_equal. apply flat_texts. now rewrite first_texts, norm_texts.
Qed.
(** ** A configuration with most kinds of nodes, for the examples below *)
Definition nl : string := String (Ascii.ascii_of_nat 10) "".
Definition sample_text : bytes := b (
"# about inputs" ++ nl ++ "input {" ++ nl ++ "  stdin {" ++ nl ++ "    # first" ++ nl ++ "    id => ""a b""" ++ nl ++ nl ++ "    # second" ++ nl ++ "    codec => json {}" ++ nl ++
"    list => [ 1.5, 'x', { key => v1 ""l"" => -2 } ]" ++ nl ++ "  }" ++ nl ++ "}" ++ nl ++
"filter { if [a][b] == 5 and !([x] =~ /re/ or ""q"" not in [y]) { mutate { } # end" ++ nl ++ " } else if ""x"" in [""y"", ""z""] { drop {} } else { grok { } } }" ++ nl ++
"output {} output { stdout {} }" ++ nl ++ "# done" ++ nl).
Definition the_config (text : bytes) : config :=
  match parse [] [] text with (Returned (VConfig c) [], _) => c | _ => Config [] [] [] [] [] end.
Definition sample : config := Eval vm_compute in the_config sample_text.
Example sample_parsed : fst (parse [] [] sample_text) = Returned (VConfig sample) [].
Proof. vm_compute. reflexivity. Qed.
Lemma sample_printable : printable sample.
Proof. apply printableb_iff. vm_compute. reflexivity. Qed.
Definition alikeb (l : list section) : bool :=
  forallb (fun s => forallb (fun t => if list_eq_dec (list_eq_dec N.eq_dec) (map c_text (ps_com s)) (map c_text (ps_com t)) then true else false) l) l.
Lemma alikeb_ok l : alikeb l = true -> alike l.
Proof.
  intros H s t I J. apply (proj1 (forallb_forall _ _) H) in I. apply (proj1 (forallb_forall _ _) I) in J. cbn in J. now destruct (list_eq_dec _ _ _) as [E|].
Qed.
Lemma sample_alike : alike_config sample.
Proof. split; [|split]; apply alikeb_ok; vm_compute; reflexivity. Qed.
Lemma default_plain : plain_options [].
Proof. repeat split. Qed.
Lemma ascii_utf8 t : forallb (fun c => c <? 128)%N t = true -> utf8_text t.
Proof.
  intros H. exists t. induction t as [|c t IH]; [split; [constructor|reflexivity]|]. cbn [forallb] in H. apply andb_true_iff in H as [H1 H2]. destruct (IH H2) as [I1 I2].
  split; [constructor; [apply N.ltb_lt in H1; left; lia|exact I1]|]. cbn [map List.concat]. rewrite <- I2. unfold utf8_encode. now rewrite H1.
Qed.
Lemma sample_readable : readable [] (config_string sample).
Proof. left. apply ascii_utf8. vm_compute. reflexivity. Qed.
(** Exactly what the printed text says, for every printable tree: *)
Theorem C12_characterised : forall opts ff c, printable c -> plain_options opts -> readable opts (config_string c) ->
  exists c' ff', parse opts ff (config_string c) = (Returned (VConfig c') [], ff') /\
    plain_config (drop_warnings c') = plain_config (drop_warnings (shared_config c)).
Proof.
  intros opts ff c P (O1 & O2 & O3) U. destruct (parse_printed opts ff c P O1 O2 O3 U) as (c' & ff' & E & B).
  exists c', ff'. split; [exact E|]. now rewrite <- plain_bare, B, plain_reread.
Qed.
Print Assumptions C12_characterised.
Theorem C12_round_trip : forall opts ff c, printable c -> alike_config c -> plain_options opts -> readable opts (config_string c) ->
  exists c' ff', parse opts ff (config_string c) = (Returned (VConfig c') [], ff') /\
    plain_config (drop_warnings c') = plain_config (drop_warnings c).
Proof.
  intros opts ff c P (A1 & A2 & A3) O U. destruct (C12_characterised opts ff c P O U) as (c' & ff' & E & B).
  exists c', ff'. split; [exact E|]. rewrite B. clear -A1 A2 A3.
  assert (S : forall l, alike l -> map (g_section flat) (shared l) = map (g_section flat) l).
  { intros [|s l] A; [reflexivity|]. unfold shared. rewrite map_map. apply map_ext_in. intros t I. unfold g_section, with_com. cbn [ps_type ps_bops ps_com ps_foot].
    f_equal. apply flat_texts. apply A; [now left|exact I]. }
  unfold plain_config, g_config, drop_warnings, shared_config. cbn [cf_input cf_filter cf_output cf_foot cf_warnings]. change (fun _ => map text_only) with flat.
  now rewrite !S.
Qed.
Print Assumptions C12_round_trip.
(** Without comments before sections this needs no condition on them. *)
Theorem C12_no_section_comments : forall opts ff c, printable c ->
  (forall s, In s (cf_input c ++ cf_filter c ++ cf_output c) -> ps_com s = []) ->
  plain_options opts -> readable opts (config_string c) ->
  exists c' ff', parse opts ff (config_string c) = (Returned (VConfig c') [], ff') /\
    plain_config (drop_warnings c') = plain_config (drop_warnings c).
Proof.
  intros opts ff c P N O U. apply C12_round_trip; auto.
  split; [|split]; intros s t I J; rewrite (N s), (N t); auto; rewrite !in_app_iff; auto.
Qed.
Print Assumptions C12_no_section_comments.
Example C12_case : exists c' ff', parse [] [] (config_string sample) = (Returned (VConfig c') [], ff') /\ plain_config (drop_warnings c') = plain_config (drop_warnings sample) /\ config_string sample <> sample_text.
Proof.
  destruct (C12_round_trip [] [] sample sample_printable sample_alike default_plain sample_readable) as (c' & ff' & E & P).
  exists c', ff'. split; [exact E|]. split; [exact P|]. vm_compute. discriminate.
Qed.
(** The condition on the comments of sections is needed: pluginSectionString prints
    the comments of the first section of a kind before each of them. *)
Definition two_inputs : bytes := b ("# one" ++ nl ++ "input {}" ++ nl ++ "# two" ++ nl ++ "input {}" ++ nl).
Definition two_inputs_tree : config := Eval vm_compute in the_config two_inputs.
Definition two_inputs_again : config := Eval vm_compute in the_config (config_string two_inputs_tree).
Theorem C12_refuted : exists c c', fst (parse [] [] two_inputs) = Returned (VConfig c) [] /\ printable c /\ fst (parse [] [] (config_string c)) = Returned (VConfig c') [] /\ plain_config (drop_warnings c') <> plain_config (drop_warnings c) /\ map (map c_text) (map ps_com (cf_input c')) = [[b "one"]; [b "one"]].
Proof.
  exists two_inputs_tree, two_inputs_again.
  split; [vm_compute; reflexivity|]. split; [apply (proj1 (printableb_iff _)); vm_compute; reflexivity|]. split; [vm_compute; reflexivity|]. split; [vm_compute; discriminate|vm_compute; reflexivity].
Qed.
Print Assumptions C12_refuted.

(** ** C37: comments survive printing and reparsing *)
(** The comment texts of all nodes, node by node in the order of the printed text
    (a node without comments contributes an empty list): *)
Definition coms_key (k : hkey) : list cblock := match k with HKStr s => [sa_com s] | HKNum n => [na_com n] end.
Fixpoint coms_attr (a : attr) : list cblock :=
  match a with
  | AtNil => []
  | AtStr s => [sa_com s]
  | AtNum n => [na_com n]
  | AtArr _ _ l c f => c :: flat_map coms_attr l ++ [f]
  | AtHash _ _ l c f => c :: flat_map coms_hentry l ++ [f]
  | AtPlug _ _ v c => c :: coms_plugin v
  end
with coms_hentry (e : hentry) : list cblock := match e with HEntry _ k v c => c :: coms_key k ++ coms_attr v end
with coms_plugin (x : plugin) : list cblock := match x with Plugin _ _ l c f => c :: flat_map coms_attr l ++ [f] end.
Definition coms_rvalue (r : rvalue) : list cblock :=
  match r with
  | RVNil | RVSel _ | RVRe _ => []
  | RVStr s => [sa_com s]
  | RVNum n => [na_com n]
  | RVArr _ _ l c f => c :: flat_map coms_attr l ++ [f]
  end.
Definition coms_strorre (r : strorre) : list cblock := match r with SRStr s => [sa_com s] | _ => [] end.
Fixpoint coms_cexpr (e : cexpr) : list cblock :=
  match e with
  | ExNil | ExNegSel _ _ _ => []
  | ExCond _ _ c | ExNeg _ _ c => coms_cond c
  | ExIn _ _ l r | ExNotIn _ _ l r | ExCmp _ _ l _ r => coms_rvalue l ++ coms_rvalue r
  | ExRv _ _ r => coms_rvalue r
  | ExRe _ _ l _ r => coms_rvalue l ++ coms_strorre r
  end
with coms_cond (c : condition) : list cblock := match c with Cond l => flat_map coms_cexpr l end.
Fixpoint coms_bop (x : bop) : list cblock :=
  match x with
  | BNil => []
  | BPlugin p | BPluginPtr p => coms_plugin p
  | BBranch i es e => coms_if i ++ flat_map coms_if es ++ coms_else e
  end
with coms_if (x : ifblock) : list cblock := match x with IfB _ c l com foot => com :: coms_cond c ++ flat_map coms_bop l ++ [foot] end
with coms_else (x : elseblock) : list cblock := match x with ElB _ l com foot => com :: flat_map coms_bop l ++ [foot] end.
Definition coms_section (s : section) : list cblock := ps_com s :: flat_map coms_bop (ps_bops s) ++ [ps_foot s].
Definition coms_config (c : config) : list cblock :=
  flat_map coms_section (cf_input c ++ cf_filter c ++ cf_output c) ++ [cf_foot c].
Definition comment_texts (c : config) : list (list bytes) := map (map c_text) (coms_config c).

(** ... which plain trees share *)
Section Texts.
  Let T := map (map c_text).
  Let f := flat.
  Lemma flat_same k c : map c_text (f k c) = map c_text c.
  Proof. unfold f, flat. rewrite map_map. reflexivity. Qed.
  Lemma T_app x y : T (x ++ y) = T x ++ T y. Proof. apply map_app. Qed.
  Lemma T_flat {A} (h : A -> list cblock) (m : A -> A) l : Forall (fun x => T (h (m x)) = T (h x)) l -> T (flat_map h (map m l)) = T (flat_map h l).
  Proof. induction 1 as [|x l Hx H IH]; [reflexivity|]. cbn [map flat_map]. now rewrite !T_app, Hx, IH. Qed.
  Lemma T_list {A} (h : A -> list cblock) (m : spot -> A -> A) l : Forall (fun x => forall k, T (h (m k x)) = T (h x)) l -> T (flat_map h (g_list m l)) = T (flat_map h l).
  Proof.
    intros H. destruct H as [|x l Hx H]; [reflexivity|]. cbn [g_list flat_map]. rewrite !T_app, Hx. f_equal. apply T_flat. eapply Forall_impl; [|exact H]. auto.
  Qed.
  Lemma T_block k c u v : T u = T v -> T (f k c :: u) = T (c :: v).
  Proof. intros E. change (map c_text (f k c) :: T u = map c_text c :: T v). now rewrite flat_same, E. Qed.
  Lemma T_key k : T (coms_key (g_key f k)) = T (coms_key k).
  Proof. destruct k; now apply T_block. Qed.
  Lemma T_attr a : forall k, T (coms_attr (g_attr f k a)) = T (coms_attr a).
  Proof.
    induction a as [|s|n|p n l c ft IH|p n l c ft IH|p n v c IH] using attr_ind'; intros k; cbn [g_attr coms_attr].
    - reflexivity.
    - now apply T_block.
    - now apply T_block.
    - apply T_block. rewrite !T_app. f_equal; [|now apply T_block]. now apply T_list.
    - apply T_block. rewrite !T_app. f_equal; [|now apply T_block]. apply T_list. eapply Forall_impl; [|exact IH]. intros [hp x v com] K j. cbn [g_hentry coms_hentry hval] in *.
      apply T_block. rewrite !T_app. f_equal; [apply T_key|apply K].
    - destruct v as [vp vn vl vc vf]. cbn [g_plugin coms_plugin pattrs] in *. do 2 apply T_block. rewrite !T_app. f_equal; [|now apply T_block]. now apply T_list.
  Qed.
  Lemma T_plugin x : T (coms_plugin (g_plugin f x)) = T (coms_plugin x).
  Proof. destruct x as [vp vn vl vc vf]. cbn [g_plugin coms_plugin]. apply T_block. rewrite !T_app. f_equal; [|now apply T_block]. apply T_list, Forall_forall. intros y _. apply T_attr. Qed.
  Lemma T_rvalue r : T (coms_rvalue (g_rvalue f r)) = T (coms_rvalue r).
  Proof.
    destruct r; cbn [g_rvalue coms_rvalue]; try reflexivity; apply T_block; try reflexivity. rewrite !T_app. f_equal; [|now apply T_block]. apply T_list, Forall_forall. intros y _. apply T_attr.
  Qed.
  Lemma T_strorre r : T (coms_strorre (g_strorre f r)) = T (coms_strorre r).
  Proof. destruct r; cbn [g_strorre coms_strorre]; try reflexivity; now apply T_block. Qed.
  Lemma T_cexpr e : T (coms_cexpr (g_cexpr f e)) = T (coms_cexpr e).
  Proof.
    induction e as [|p bo c IH|p bo c IH|p bo s|p bo l r|p bo l r|p bo r|p bo l o r|p bo l o r] using cexpr_ind'; cbn [g_cexpr coms_cexpr]; rewrite ?T_app, ?T_rvalue, ?T_strorre; try reflexivity.
    - destruct c as [l]; cbn [g_cond coms_cond exprs] in *. now apply T_flat.
    - destruct c as [l]; cbn [g_cond coms_cond exprs] in *. now apply T_flat.
  Qed.
  Lemma T_cond c : T (coms_cond (g_cond f c)) = T (coms_cond c).
  Proof. destruct c as [l]; cbn [g_cond coms_cond]. apply T_flat, Forall_forall. intros x _. apply T_cexpr. Qed.
  Lemma T_bop x : T (coms_bop (g_bop f x)) = T (coms_bop x).
  Proof.
    induction x as [|p|p|i es e IHi IHes IHe] using bop_ind'; [reflexivity|apply T_plugin|apply T_plugin|].
    change (T (coms_if (g_if f i) ++ flat_map coms_if (map (g_if f) es) ++ coms_else (g_else f e)) = T (coms_if i ++ flat_map coms_if es ++ coms_else e)).
    assert (I : forall i, Forall (fun x => T (coms_bop (g_bop f x)) = T (coms_bop x)) (block i) -> T (coms_if (g_if f i)) = T (coms_if i)).
    { intros [p c l com ft] K. cbn [g_if coms_if block] in *. apply T_block. rewrite !T_app, T_cond. do 2 f_equal; [|now apply T_block]. now apply T_flat. }
    rewrite !T_app, (I _ IHi). do 2 f_equal.
    - apply T_flat. eapply Forall_impl; [|exact IHes]. exact I.
    - destruct e as [p l com ft]. cbn [g_else coms_else eblock] in *. apply T_block. rewrite !T_app. f_equal; [|now apply T_block]. now apply T_flat.
  Qed.
  Lemma T_section s : T (coms_section (g_section f s)) = T (coms_section s).
  Proof. unfold coms_section, g_section. cbn [ps_com ps_bops ps_foot]. apply T_block. rewrite !T_app. f_equal; [|now apply T_block]. apply T_flat, Forall_forall. intros x _. apply T_bop. Qed.
  Lemma T_config c : T (coms_config (g_config f c)) = T (coms_config c).
  Proof.
    unfold coms_config, g_config. cbn [cf_input cf_filter cf_output cf_foot]. rewrite !flat_map_app, !T_app. f_equal; [|now apply T_block].
    assert (S : forall l, T (flat_map coms_section (map (g_section f) l)) = T (flat_map coms_section l)) by (intros l; apply T_flat, Forall_forall; intros x _; apply T_section).
    now rewrite !S.
  Qed.
End Texts.
Lemma plain_comments c : comment_texts (plain_config c) = comment_texts c.
Proof. exact (T_config c). Qed.
(** Reparsing finds the same comments, for every node of the tree. *)
Theorem C37_comments_survive_partial : forall opts ff c, printable c -> alike_config c -> plain_options opts -> readable opts (config_string c) ->
  exists c' ff', parse opts ff (config_string c) = (Returned (VConfig c') [], ff') /\ comment_texts c' = comment_texts c.
Proof.
  intros opts ff c P A O U. destruct (C12_round_trip opts ff c P A O U) as (c' & ff' & E & B). exists c', ff'. split; [exact E|].
  apply (f_equal comment_texts) in B. rewrite !plain_comments in B. exact B.
Qed.
Print Assumptions C37_comments_survive_partial.
(** In general the comments of a section are those of the first section of its kind. *)
Theorem C37_characterised : forall opts ff c, printable c -> plain_options opts -> readable opts (config_string c) ->
  exists c' ff', parse opts ff (config_string c) = (Returned (VConfig c') [], ff') /\ comment_texts c' = comment_texts (shared_config c).
Proof.
  intros opts ff c P O U. destruct (C12_characterised opts ff c P O U) as (c' & ff' & E & B). exists c', ff'. split; [exact E|].
  apply (f_equal comment_texts) in B. rewrite !plain_comments in B. exact B.
Qed.
Print Assumptions C37_characterised.
Example C37_case : exists c' ff', parse [] [] (config_string sample) = (Returned (VConfig c') [], ff') /\ filter (fun l => negb (is_none l)) (comment_texts c') = [[b "about inputs"]; [b "first"]; [b "second"]; [b "end"]; [b "done"]].
Proof.
  destruct (C37_comments_survive_partial [] [] sample sample_printable sample_alike default_plain sample_readable) as (c' & ff' & E & P).
  exists c', ff'. split; [exact E|]. rewrite P. vm_compute. reflexivity.
Qed.
Theorem C37_refuted : exists c c', fst (parse [] [] two_inputs) = Returned (VConfig c) [] /\ fst (parse [] [] (config_string c)) = Returned (VConfig c') [] /\ In [b "two"] (comment_texts c) /\ ~ In [b "two"] (comment_texts c').
Proof.
  exists two_inputs_tree, two_inputs_again.
  split; [vm_compute; reflexivity|]. split; [vm_compute; reflexivity|]. split; vm_compute.
  - do 2 right. left. reflexivity.
  - intros H. repeat (destruct H as [H|H]; [discriminate H|]). exact H.
Qed.
Print Assumptions C37_refuted.

(** ** C14: formatting a formatted file changes nothing *)
(** What a formatter does: parse, then String(). *)
Definition formatted (opts : list popt) (text text' : bytes) : Prop :=
  exists ff c ff', parse opts ff text = (Returned (VConfig c) [], ff') /\ text' = config_string c.

(** Blank lines around comments as the printer writes them: a comment block has no blank line after
    its comments; before it there is one unless the block stands first in its list of attributes,
    elements or entries, or at the beginning or the end of a block.  Blank lines between the
    comments of a block are free. *)
Definition settled (k : spot) (c : cblock) : Prop :=
  Forall (fun x => c_after x = false) c /\
  match k, c with First, x :: _ => c_before x = false | Later, x :: _ => c_before x = true | _, _ => True end.
(** the comments before the first section of the file may be followed by a blank line *)
Definition settled_head (first : bool) (c : cblock) : Prop := settled First (if first then map_last clear_after c else c).
Definition settled_sections (first : bool) (l : list section) : Prop :=
  Forall (fun s => Forall (e_bop settled) (ps_bops s) /\ settled First (ps_foot s)) l /\
  match l with [] => True | s :: _ => settled_head first (ps_com s) end.
Definition is_nil {A} (l : list A) : bool := match l with [] => true | _ => false end.
Definition settled_config (c : config) : Prop :=
  settled_sections true (cf_input c) /\ settled_sections (is_nil (cf_input c)) (cf_filter c) /\
  settled_sections (is_nil (cf_input c) && is_nil (cf_filter c)) (cf_output c) /\ settled Later (cf_foot c).

Lemma settled_norm c : settled First c -> norm c = c.
Proof.
  intros [H K]. destruct H as [|[t x y] c Hx H]; [reflexivity|]. cbn in *. subst. cbn [norm]. cbn. now rewrite norm_from_same.
Qed.
Lemma settled_rc k c : settled k c -> rc_at k c = c.
Proof.
  destruct k; [apply settled_norm| |reflexivity]. intros [H K]. destruct H as [|[t x y] c Hx H]; [reflexivity|]. cbn in *. subst. unfold rc. cbn [norm c_after map_first]. now rewrite norm_from_same.
Qed.
Lemma norm_from_clear l : forall pre, norm_from pre (map_last clear_after l) = norm_from pre l.
Proof. induction l as [|x [|y l] IH]; intros pre; [reflexivity|reflexivity|]. change (map_last clear_after (x :: y :: l)) with (x :: map_last clear_after (y :: l)). cbn [norm_from]. f_equal. apply IH. Qed.
Lemma norm_clear l : norm (map_last clear_after l) = norm l.
Proof. destruct l as [|x [|y l]]; [reflexivity|reflexivity|]. change (map_last clear_after (x :: y :: l)) with (x :: map_last clear_after (y :: l)). cbn [norm]. f_equal. apply norm_from_clear. Qed.
Lemma set_clear l : forall d, set_last (last_after d l) (map_last clear_after l) = match l with [] => [] | _ => l end.
Proof.
  induction l as [|x [|y l] IH]; intros d; [destruct d; reflexivity|destruct x as [t u []]; reflexivity|].
  change (map_last clear_after (x :: y :: l)) with (x :: map_last clear_after (y :: l)). change (last_after d (x :: y :: l)) with (last_after (c_after x) (y :: l)).
  specialize (IH (c_after x)). destruct (last_after (c_after x) (y :: l)); cbn [set_last] in *; [|now rewrite IH].
  assert (N : map_last clear_after (y :: l) <> []) by (destruct l; discriminate). destruct (map_last clear_after (y :: l)) eqn:E; [congruence|].
  change (map_last set_after (x :: c :: l0)) with (x :: map_last set_after (c :: l0)). now rewrite IH.
Qed.
Lemma settled_first c : settled_head true c -> first_com c = c.
Proof. intros H. unfold first_com. apply settled_norm in H. rewrite norm_clear in H. rewrite H. pose proof (set_clear c false) as E. destruct c; exact E. Qed.
Lemma settled_secs k first l : settled_sections first l -> sections_string k (re_secs first l) = sections_string k l.
Proof.
  intros [H K]. assert (S : forall s com, Forall (e_bop settled) (ps_bops s) -> section_string (re_section s com) = section_string s).
  { intros s com E. unfold section_string. rewrite re_is_section. cbn [ps_bops]. rewrite (All'_map (e_bop settled) (g_bop rc_at) (g_bop same_com)).
    - rewrite (map_ext _ _ (fun x => eq_sym (bare_is_bop x))). rewrite texts_bare; [reflexivity|]. apply Forall_forall. intros x _. apply bop_string_bare.
    - apply Forall_forall. intros x _. apply ge_bop. exact settled_rc.
    - clear -E. induction E; cbn; auto. }
  assert (F : forall s com, settled First (ps_foot s) -> ps_foot (re_section s com) = ps_foot s).
  { intros s com E. rewrite re_is_section. now apply settled_norm. }
  unfold sections_string. destruct l as [|s l]; [reflexivity|]. cbn [re_secs shared_com]. f_equal. cbn [map]. inversion H as [|? ? [H1 H2] H3]; subst.
  assert (C : (if first then first_com (ps_com s) else norm (ps_com s)) = ps_com s) by (destruct first; [now apply settled_first|now apply settled_norm]).
  rewrite C. f_equal.
  - change (ps_com (re_section s (ps_com s))) with (ps_com s). now rewrite (S _ _ H1), (F _ _ H2).
  - rewrite map_map. apply map_ext_in. intros t I. rewrite Forall_forall in H3. destruct (H3 _ I) as [T1 T2]. change (ps_com (re_section s (ps_com s))) with (ps_com s). now rewrite (S _ _ T1), (F _ _ T2).
Qed.
Lemma settled_reread c : settled_config c -> config_string (reread c) = config_string c.
Proof.
  intros (H1 & H2 & H3 & H4). unfold config_string. cbn [reread cf_input cf_filter cf_output cf_foot]. change (@nil_secs) with (@is_nil section).
  rewrite (settled_secs _ _ _ H1), (settled_secs _ _ _ H2), (settled_secs _ _ _ H3). do 4 f_equal. exact (settled_rc Later _ H4).
Qed.
(** one formatting, whatever the flags of the tree are *)
Lemma format_reread opts c text : printable c -> plain_options opts -> readable opts (config_string c) ->
  formatted opts (config_string c) text -> text = config_string (reread c).
Proof.
  intros P (O1 & O2 & O3) U (ff & c1 & ff1 & E & ->). destruct (parse_printed opts ff c P O1 O2 O3 U) as (c' & ff' & E' & B).
  rewrite E in E'. injection E' as -> _. rewrite <- B, config_string_bare. reflexivity.
Qed.
Lemma format_total opts c : printable c -> plain_options opts -> readable opts (config_string c) -> exists text, formatted opts (config_string c) text.
Proof. intros P (O1 & O2 & O3) U. destruct (parse_printed opts [] c P O1 O2 O3 U) as (c' & ff' & E' & B). exists (config_string c'), [], c', ff'. auto. Qed.
Lemma reread_readable opts c : printable c -> readable opts (config_string c) -> readable opts (config_string (reread c)).
Proof.
  intros P [U|U]; [left|now right]. rewrite (config_layout _ (reread_printable _ P)). rewrite (config_layout _ P) in U. exact (proj1 (bl_utf8 _ _ _ _ (reread_blank c)) U).
Qed.
(** Formatting the output of the formatter gives the same bytes, if the blank lines
    around comments are as the printer writes them; *)
Theorem C14_settled_partial : forall opts c, printable c -> settled_config c -> plain_options opts -> readable opts (config_string c) ->
  formatted opts (config_string c) (config_string c) /\
  forall text, formatted opts (config_string c) text -> text = config_string c.
Proof.
  intros opts c P S O U. assert (K : forall text, formatted opts (config_string c) text -> text = config_string c).
  { intros text F. rewrite (format_reread opts c text P O U F). now apply settled_reread. }
  split; [|exact K]. destruct (format_total opts c P O U) as (text & F). now rewrite <- (K _ F) at 2.
Qed.
Print Assumptions C14_settled_partial.
(** in any case the second formatting settles it: the third one changes nothing; *)
Theorem C14_second_partial : forall opts c text1 text2, printable c -> plain_options opts -> readable opts (config_string c) ->
  formatted opts (config_string c) text1 -> formatted opts text1 text2 -> text2 = text1.
Proof.
  intros opts c text1 text2 P O U F1 F2. pose proof (format_reread opts c text1 P O U F1) as E. subst text1.
  rewrite <- (reread_twice c) at 1. exact (eq_sym (eq_sym (format_reread opts (reread c) text2 (reread_printable c P) O (reread_readable opts c P U) F2))).
Qed.
Print Assumptions C14_second_partial.
Theorem C14_two_formattings_partial : forall opts c, printable c -> plain_options opts -> readable opts (config_string c) ->
  exists text1, formatted opts (config_string c) text1 /\ formatted opts text1 text1.
Proof.
  intros opts c P O U. destruct (format_total opts c P O U) as (text1 & F1). exists text1. split; [exact F1|].
  pose proof (format_reread opts c text1 P O U F1) as E. subst text1.
  destruct (format_total opts (reread c) (reread_printable c P) O (reread_readable opts c P U)) as (text2 & F2).
  now rewrite (C14_second_partial opts c _ _ P O U F1 F2) in F2.
Qed.
Print Assumptions C14_two_formattings_partial.
Example C14_case : formatted [] (config_string sample) (config_string sample).
Proof.
  apply (C14_settled_partial [] sample sample_printable); [|exact default_plain|exact sample_readable].
  vm_compute. repeat first [exact I | reflexivity | split | constructor].
Qed.
(** The condition on blank lines is needed: a blank line before the first comment of a
    block may be recorded and printed, and the printed one is not recorded. *)
Definition blank_text : bytes := b ("input { " ++ nl ++ nl ++ "# foo" ++ nl ++ "}" ++ nl).
Definition blank_tree : config := Eval vm_compute in the_config blank_text.
Definition blank_again : config := Eval vm_compute in the_config (config_string blank_tree).
Theorem C14_refuted : exists c c', fst (parse [] [] blank_text) = Returned (VConfig c) [] /\ printable c /\ fst (parse [] [] (config_string c)) = Returned (VConfig c') [] /\ config_string c' <> config_string c.
Proof.
  exists blank_tree, blank_again.
  split; [vm_compute; reflexivity|]. split; [apply (proj1 (printableb_iff _)); vm_compute; reflexivity|]. split; [vm_compute; reflexivity|vm_compute; discriminate].
Qed.
Print Assumptions C14_refuted.
(** and a formatting changes blank lines only: the lines that are not empty are the
    same, in the same order. *)
Definition lines (text : bytes) : list bytes := split NL text.
Theorem C14_blank_lines_only_partial : forall opts c text, printable c -> plain_options opts -> readable opts (config_string c) ->
  formatted opts (config_string c) text ->
  filter (fun l => negb (beqb l [])) (lines text) = filter (fun l => negb (beqb l [])) (lines (config_string c)).
Proof.
  intros opts c text P O U F. rewrite (format_reread opts c text P O U F), (config_layout _ P), (config_layout _ (reread_printable _ P)).
  exact (eq_sym (bl_lines _ _ _ _ (reread_blank c))).
Qed.
Print Assumptions C14_blank_lines_only_partial.

(** ** C36: indentation does not alter the text *)
(** [line] (Lines.v): an empty line; a comment line; or a line of text whose quotes are all
    part of complete quoted literals, which may contain line breaks.  [indented] puts two spaces
    in front of a line that is not empty.  A text is a sequence of lines, the last one not
    empty, and any number of further line breaks, which are dropped. *)
Theorem C36_indents : forall ls l k e, Forall line ls -> line l -> l <> [NL] ->
  prefix (List.concat ls ++ l ++ repeat NL k) e = NL :: flat_map indented (ls ++ [l]).
Proof. exact prefix_lines. Qed.
Print Assumptions C36_indents.
Definition unindented (l : bytes) : bytes := if beqb l [NL] then l else skipn 2 l.
Lemma unindented_indented l : line l -> unindented (indented l) = l.
Proof.
  intros H. unfold indented. destruct (beqb l [NL]) eqn:E; unfold unindented; [now rewrite E|]. assert (X : beqb ([SP; SP] ++ l) [NL] = false) by reflexivity. rewrite X. reflexivity.
Qed.
Lemma indented_line l : line l -> line (indented l).
Proof.
  intros H. destruct H as [|k t Ht|k c t Hs Hh B]; unfold indented.
  - constructor.
  - destruct (beqb _ _) eqn:E; [now apply line_comment|]. exact (line_comment (S (S k)) t Ht).
  - destruct (beqb _ _) eqn:E; [now apply line_text|]. exact (line_text (S (S k)) c t Hs Hh B).
Qed.
(** The text is recovered from the indented text, line by line: *)
Theorem C36_recovered : forall ls l k e, Forall line ls -> line l -> l <> [NL] ->
  exists out, prefix (List.concat ls ++ l ++ repeat NL k) e = NL :: List.concat out /\ Forall line out /\ Forall (fun x => x = [NL] \/ exists y, x = SP :: SP :: y) out /\ map unindented out = ls ++ [l].
Proof.
  intros ls l k e F L N. exists (map indented (ls ++ [l])). rewrite (prefix_lines ls l k e F L N), flat_map_concat_map. split; [reflexivity|].
  assert (F2 : Forall line (ls ++ [l])) by (apply Forall_app; auto). split; [|split].
  - apply Forall_map. eapply Forall_impl; [|exact F2]. exact indented_line.
  - apply Forall_map. apply Forall_forall. intros x _. unfold indented. destruct (beqb x [NL]) eqn:E; [left; now apply beqb_true|right; now exists x].
  - rewrite map_map. rewrite <- (map_id (ls ++ [l])) at 2. apply map_ext_in. intros x I. rewrite Forall_forall in F2. apply unindented_indented. auto.
Qed.
Print Assumptions C36_recovered.
(** so different texts have different indented forms. *)
Theorem C36_injective : forall ls l k e ls' l' k' e', Forall line ls -> line l -> l <> [NL] -> Forall line ls' -> line l' -> l' <> [NL] ->
  prefix (List.concat ls ++ l ++ repeat NL k) e = prefix (List.concat ls' ++ l' ++ repeat NL k') e' -> List.concat ls ++ l = List.concat ls' ++ l'.
Proof.
  intros ls l k e ls' l' k' e' F L N F' L' N' E. rewrite !prefix_lines in E by assumption. injection E as E. rewrite !flat_map_concat_map in E.
  assert (X : forall ls l, Forall line ls -> line l -> find_lines (List.concat (map indented (ls ++ [l]))) = map indented (ls ++ [l])).
  { intros ms m G M. apply find_lines_concat, Forall_map, Forall_app. split; [eapply Forall_impl; [|exact G]; exact indented_line|constructor; [now apply indented_line|constructor]]. }
  apply (f_equal find_lines) in E. rewrite !X in E by assumption. apply (f_equal (map unindented)) in E. rewrite !map_map in E.
  assert (Y : forall ls l, Forall line ls -> line l -> map (fun x => unindented (indented x)) (ls ++ [l]) = ls ++ [l]).
  { intros ms m G M. rewrite <- map_id. apply map_ext_in. intros x I. apply unindented_indented. apply in_app_iff in I as [I|[<-|[]]]; [|exact M]. rewrite Forall_forall in G. auto. }
  rewrite !Y in E by assumption. apply (f_equal (fun u : list bytes => List.concat u)) in E. rewrite !concat_app in E. cbn [List.concat] in E. now rewrite !app_nil_r in E.
Qed.
Print Assumptions C36_injective.
(** Quoted literals are kept as they are, line breaks included: *)
Theorem C36_literal : forall k c t q v u e, ~ space c -> c <> HASH -> balanced (c :: t) -> In q [DQ; SQ] -> literal_value q v -> balanced u ->
  prefix (repeat SP k ++ (c :: t) ++ (q :: v ++ [q]) ++ u ++ [NL]) e = NL :: SP :: SP :: repeat SP k ++ (c :: t) ++ (q :: v ++ [q]) ++ u ++ [NL].
Proof.
  intros k c t q v u e Hs Hh B Q V U.
  assert (BL : balanced ((c :: t) ++ (q :: v ++ [q]) ++ u)).
  { clear Hs Hh. induction B as [|d s D B IH|p w s P W B IH]; [now constructor|cbn [app]; now constructor|]. rewrite <- (app_assoc (p :: w ++ [p]) s). now constructor. }
  cbn [app] in BL. pose proof (line_text k c (t ++ (q :: v ++ [q]) ++ u) Hs Hh BL) as LN.
  assert (E : repeat SP k ++ (c :: t) ++ (q :: v ++ [q]) ++ u ++ [NL] = List.concat [] ++ (repeat SP k ++ (c :: t ++ (q :: v ++ [q]) ++ u) ++ [NL]) ++ repeat NL 0).
  { cbn [List.concat repeat app]. rewrite app_nil_r. repeat (rewrite <- ?app_assoc; cbn [app]). reflexivity. }
  rewrite E, prefix_lines; [|constructor|exact LN|].
  - cbn [app flat_map]. unfold indented. destruct (beqb _ _) eqn:X.
    + exfalso. apply beqb_true in X. destruct k; [cbn in X; injection X as X _; subst c; apply Hs; right; now left|discriminate X].
    + cbn [List.concat repeat app]. rewrite !app_nil_r. reflexivity.
  - intros X. destruct k; [cbn in X; injection X as X _; subst c; apply Hs; right; now left|discriminate X].
Qed.
Print Assumptions C36_literal.
Example C36_case : prefix (b ("a => ""x" ++ nl ++ "y""" ++ nl ++ nl ++ "# it's" ++ nl ++ "bb" ++ nl)) false
  = b (nl ++ "  a => ""x" ++ nl ++ "y""" ++ nl ++ nl ++ "  # it's" ++ nl ++ "  bb" ++ nl).
Proof. vm_compute. reflexivity. Qed.
Example C36_case_lines : exists ls l, b ("a => ""x" ++ nl ++ "y""" ++ nl ++ nl ++ "# it's" ++ nl ++ "bb" ++ nl) = List.concat ls ++ l ++ repeat NL 0 /\ Forall line ls /\ line l /\ l <> [NL].
Proof.
  exists [b ("a => ""x" ++ nl ++ "y""" ++ nl); [NL]; b ("# it's" ++ nl)], (b ("bb" ++ nl)). split; [reflexivity|]. split; [|split; [|discriminate]].
  - constructor; [|constructor; [constructor|constructor; [|constructor]]].
    + apply (line_text 0 97%N (b (" => ""x" ++ nl ++ "y"""))); [intros H; repeat (destruct H as [H|H]; [discriminate H|]); exact H|discriminate|].
      apply balb_iff. vm_compute. reflexivity.
    + apply (line_comment 0 (b " it's")). intros H. repeat (destruct H as [H|H]; [discriminate H|]). exact H.
  - apply (line_text 0 98%N (b "b")); [intros H; repeat (destruct H as [H|H]; [discriminate H|]); exact H|discriminate|]. apply balb_iff. vm_compute. reflexivity.
Qed.
(** Complete quotes are needed: text with a single quote, as in a regular expression, is lost. *)
Theorem C36_refuted : prefix (b ("aa" ++ nl ++ "if [x] =~ /it's/ {" ++ nl ++ "}" ++ nl)) false <> [] /\
  prefix (b ("aa" ++ nl ++ "if [x] =~ /it's/ {" ++ nl ++ "}" ++ nl)) false = b (nl ++ "  aa" ++ nl ++ "  s/ {" ++ nl ++ "  }" ++ nl).
Proof. vm_compute. split; [discriminate|reflexivity]. Qed.
Print Assumptions C36_refuted.
