(** Properties of the nodes of a parsed tree: C09, C10, C11, C13.
    Specification: Tree.v ([items_config]: every node with its position; [at_text];
    [covered]; [wf_config]) and PosFacts.v ([true_pos]). *)
From Coq Require Import List NArith Bool String Arith Lia.
From Verif Require Import Bytes Utf8 F64 Ast Peg Actions Engine Parser GrammarGen AstPrint EscapeFacts PosFacts LexFacts Tree ParseTree.
Import ListNotations.

(** A configuration with all kinds of nodes, for the examples. *)
Definition node_sample : bytes :=
  b "# c" ++ [NL] ++ b "input { stdin { codec => json { } } }" ++ [NL] ++
  b "filter { if [a] == 'x' and ([b] =~ /y/) { mutate { add => { ""k"" => [1, ""v"", w1] } } } else if ! [c] { } else { drop { } } }" ++ [NL] ++
  b "input { ""q n"" { } } output { stdout { id => ""1"" } }".

(** ** C09: every position in the tree is zero or a position of the input *)
Theorem C09_positions : forall opts ff data c ff',
  k_entry (config_of opts) = "init"%string -> parse opts ff data = (Returned (VConfig c) [], ff') ->
  Forall (fun i => item_pos i = zero_pos \/ true_pos data (item_pos i)) (items_config c).
Proof.
  intros opts ff data c ff' He E. destruct (parse_items _ _ _ _ _ He E) as (ss & L & I). apply Forall_forall. intros i Hi.
  apply laid_pos in L. rewrite Forall_forall in L. auto.
Qed.
Print Assumptions C09_positions.
(** ... hence also those of the plugins, attributes and conditions a walk meets. *)
Theorem C09_nodes : forall opts ff data c ff',
  k_entry (config_of opts) = "init"%string -> parse opts ff data = (Returned (VConfig c) [], ff') ->
  let fine p := p = zero_pos \/ true_pos data p in
  (forall p n l co f, plugin_of c (Plugin p n l co f) -> fine p) /\
  (forall y, attr_of c y -> Forall (fun i => fine (item_pos i)) (items_attr y)) /\
  (forall k, cond_of c k -> Forall (fun i => fine (item_pos i)) (items_cond k)).
Proof.
  intros opts ff data c ff' He E fine. pose proof (C09_positions _ _ _ _ _ He E) as P. rewrite Forall_forall in P. split; [|split].
  - intros p n l co f H. apply (P (ITok p n)). apply (plugin_items _ _ H). now left.
  - intros y H. apply Forall_forall. intros i Hi. apply P, (attr_items _ _ H), Hi.
  - intros k H. apply Forall_forall. intros i Hi. apply P, (cond_items _ _ H), Hi.
Qed.
Print Assumptions C09_nodes.
Example C09_case : exists c ff, parse [] [] node_sample = (Returned (VConfig c) [], ff) /\
  map item_pos (firstn 3 (items_config c)) = [Pos 2 1 4; Pos 2 9 12; Pos 2 17 20] /\ List.length (items_config c) = 40.
Proof. eexists _, _. split; [vm_compute; reflexivity|]. vm_compute. auto. Qed.

(** ** C10: the text of a node stands at its position *)
Theorem C10_tokens : forall opts ff data c ff' p t,
  k_entry (config_of opts) = "init"%string -> parse opts ff data = (Returned (VConfig c) [], ff') ->
  In (ITok p t) (items_config c) -> at_text data p t.
Proof.
  intros opts ff data c ff' p t He E H. destruct (parse_items _ _ _ _ _ He E) as (ss & L & I). exact (proj1 (laid_in _ _ _ _ _ _ L (I _ H))).
Qed.
Print Assumptions C10_tokens.
(** Spelled out for the nodes a user asks for. *)
Theorem C10_nodes : forall opts ff data c ff',
  k_entry (config_of opts) = "init"%string -> parse opts ff data = (Returned (VConfig c) [], ff') ->
  (forall s, In s (sections c) -> at_text data (ps_pos s) (ptype_string (ps_type s))) /\
  (forall p n l co f, plugin_of c (Plugin p n l co f) -> at_text data p n) /\
  (forall p k bs co f es e, bop_of c (BBranch (IfB p k bs co f) es e) -> at_text data p (b "if")) /\
  (forall i p k bs co f es e, bop_of c (BBranch i es e) -> In (IfB p k bs co f) es -> at_text data p (b "else")) /\
  (forall i es p bs co f, bop_of c (BBranch i es (ElB p bs co f)) -> p <> zero_pos -> at_text data p (b "else")) /\
  (forall s, attr_of c (AtStr s) -> at_text data (sa_pos s) (match sa_name s with [] => sa_value_string s | n => n end)).
Proof.
  intros opts ff data c ff' He E. pose proof (fun p t => C10_tokens _ _ _ _ _ p t He E) as T. split; [|split; [|split; [|split; [|split]]]].
  - intros s H. apply T, in_flat_map. exists s. split; [exact H|now left].
  - intros p n l co f H. apply T, (plugin_items _ _ H). now left.
  - intros p k bs co f es e H. apply T, (bop_items _ _ H). now left.
  - intros [ip ik ibs ico if_] p k bs co f es e H K. apply T, (bop_items _ _ H). cbn [items_bop]. apply in_or_app. right. apply in_or_app. left. apply in_flat_map. eexists. split; [exact K|now left].
  - intros [ip ik ibs ico if_] es p bs co f H K. apply T, (bop_items _ _ H). cbn [items_bop]. apply in_or_app. right. apply in_or_app. right. cbn [items_else]. left.
    unfold is_zero. destruct p as [pl pc po]. cbn [p_line p_col p_off]. destruct (Nat.eqb_spec pl 0), (Nat.eqb_spec pc 0), (Nat.eqb_spec po 0); cbn; auto. subst. now elim K.
  - intros s H. apply T, (attr_items _ _ H). cbn [items_attr]. left. unfold own. now destruct (sa_name s).
Qed.
Print Assumptions C10_nodes.
(** The nodes stand in the text in the order of the tree, without overlap. *)
Theorem C10_document_order : forall opts ff data c ff' s,
  k_entry (config_of opts) = "init"%string -> parse opts ff data = (Returned (VConfig c) [], ff') ->
  In s (sections c) -> laid data 0 (items_section s) (List.length data).
Proof.
  intros opts ff data c ff' s He E H. destruct (parse_tree _ _ _ _ _ He E) as (_ & ss & C & E1 & E2 & E3).
  assert (K : In s ss). { unfold sections in H. rewrite E1, E2, E3 in H. apply of_types_in; [exact (covered_types _ _ _ _ C)|exact H]. }
  apply covered_items in C. apply in_split in K as (l1 & l2 & ->). rewrite flat_map_app in C. cbn [flat_map] in C.
  apply laid_split in C as (m1 & C1 & C2). apply laid_split in C2 as (m2 & C2 & C3).
  eapply laid_weak; [exact C2|apply laid_le in C1; lia|now apply laid_le in C3].
Qed.
Print Assumptions C10_document_order.
Example C10_case : exists c ff, parse [] [] node_sample = (Returned (VConfig c) [], ff) /\
  In (ITok (Pos 2 17 20) (b "codec")) (items_config c) /\ plugin_of c (Plugin (Pos 2 26 29) (b "json") [] [] []).
Proof.
  eexists _, _. split; [vm_compute; reflexivity|]. split; [vm_compute; auto|]. right. eexists (Pos 2 17 20), (b "codec"), [].
  eexists _, _, _, _, _, _. split; [eexists; split; [left; reflexivity|apply occ_here; left; reflexivity]|]. split; [left; reflexivity|]. apply ins_here.
Qed.

(** ** C11: the sections of the text *)
(** The text consists of white space, comments and the sections [ss]; Input, Filter
    and Output list those of the respective kind, in the order of the text. *)
Theorem C11_sections : forall opts ff data c ff',
  k_entry (config_of opts) = "init"%string -> parse opts ff data = (Returned (VConfig c) [], ff') ->
  exists ss, covered data 0 ss (List.length data) /\
    cf_input c = of_type PTInput ss /\ cf_filter c = of_type PTFilter ss /\ cf_output c = of_type PTOutput ss /\
    (forall s, In s ss <-> In s (sections c)).
Proof.
  intros opts ff data c ff' He E. destruct (parse_tree _ _ _ _ _ He E) as (_ & ss & C & E1 & E2 & E3). exists ss. repeat (split; [assumption|]).
  intros s. unfold sections. rewrite E1, E2, E3. apply of_types_in. exact (covered_types _ _ _ _ C).
Qed.
Print Assumptions C11_sections.
Example C11_case : exists c ff, parse [] [] node_sample = (Returned (VConfig c) [], ff) /\
  map (fun s => p_off (ps_pos s)) (cf_input c) = [4; 166] /\ List.length (cf_filter c) = 1 /\ List.length (cf_output c) = 1.
Proof. eexists _, _. split; [vm_compute; reflexivity|]. vm_compute. auto. Qed.

(** ** C13: well formed trees *)
Theorem C13_well_formed : forall opts ff data c ff',
  k_entry (config_of opts) = "init"%string -> parse opts ff data = (Returned (VConfig c) [], ff') -> wf_config c.
Proof. intros opts ff data c ff' He E. exact (proj1 (parse_tree _ _ _ _ _ He E)). Qed.
Print Assumptions C13_well_formed.
Example C13_case : exists c ff, parse [] [] node_sample = (Returned (VConfig c) [], ff) /\ cf_filter c <> [] /\ sections c <> [].
Proof. eexists _, _. split; [vm_compute; reflexivity|]. vm_compute. split; discriminate. Qed.
