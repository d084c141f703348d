(** A tree with every comment block emptied, and the proof that the action
    blocks commute with it (used for the option IgnoreComments). *)
From Coq Require Import List NArith Bool String Arith Lia.
From Verif Require Import Bytes Utf8 F64 Ast Peg Actions Engine GrammarGen Parser Run EngineFacts Termination Sim.
Import ListNotations.

Definition strip_str (s : strattr) : strattr := StrAttr (sa_pos s) (sa_name s) (sa_val s) (sa_type s) [].
Definition strip_num (n : numattr) : numattr := NumAttr (na_pos n) (na_name n) (na_val n) [].
Definition strip_key (k : hkey) : hkey :=
  match k with HKStr s => HKStr (strip_str s) | HKNum n => HKNum (strip_num n) end.
Fixpoint strip_attr (a : attr) : attr :=
  match a with
  | AtNil => AtNil
  | AtStr s => AtStr (strip_str s)
  | AtNum n => AtNum (strip_num n)
  | AtArr p n l _ _ => AtArr p n (map strip_attr l) [] []
  | AtHash p n l _ _ => AtHash p n (map strip_hentry l) [] []
  | AtPlug p n v _ => AtPlug p n (strip_plugin v) []
  end
with strip_hentry (e : hentry) : hentry :=
  match e with HEntry p k v _ => HEntry p (strip_key k) (strip_attr v) [] end
with strip_plugin (x : plugin) : plugin :=
  match x with Plugin p n l _ _ => Plugin p n (map strip_attr l) [] [] end.
Definition strip_rvalue (r : rvalue) : rvalue :=
  match r with
  | RVStr s => RVStr (strip_str s)
  | RVNum n => RVNum (strip_num n)
  | RVArr p n l _ _ => RVArr p n (map strip_attr l) [] []
  | _ => r
  end.
Definition strip_strorre (r : strorre) : strorre :=
  match r with SRStr s => SRStr (strip_str s) | _ => r end.
Fixpoint strip_cexpr (e : cexpr) : cexpr :=
  match e with
  | ExNil => ExNil
  | ExCond p bo c => ExCond p bo (strip_cond c)
  | ExNeg p bo c => ExNeg p bo (strip_cond c)
  | ExNegSel p bo s => ExNegSel p bo s
  | ExIn p bo l r => ExIn p bo (strip_rvalue l) (strip_rvalue r)
  | ExNotIn p bo l r => ExNotIn p bo (strip_rvalue l) (strip_rvalue r)
  | ExRv p bo r => ExRv p bo (strip_rvalue r)
  | ExCmp p bo l o r => ExCmp p bo (strip_rvalue l) o (strip_rvalue r)
  | ExRe p bo l o r => ExRe p bo (strip_rvalue l) o (strip_strorre r)
  end
with strip_cond (c : condition) : condition := match c with Cond l => Cond (map strip_cexpr l) end.
Fixpoint strip_bop (x : bop) : bop :=
  match x with
  | BNil => BNil
  | BPlugin p => BPlugin (strip_plugin p)
  | BPluginPtr p => BPluginPtr (strip_plugin p)
  | BBranch i es e => BBranch (strip_if i) (map strip_if es) (strip_else e)
  end
with strip_if (x : ifblock) : ifblock :=
  match x with IfB p c l _ _ => IfB p (strip_cond c) (map strip_bop l) [] [] end
with strip_else (x : elseblock) : elseblock :=
  match x with ElB p l _ _ => ElB p (map strip_bop l) [] [] end.
Definition strip_section (s : section) : section :=
  Section_ (ps_pos s) (ps_type s) (map strip_bop (ps_bops s)) [] [].
Definition strip_config (c : config) : config :=
  Config (map strip_section (cf_input c)) (map strip_section (cf_filter c)) (map strip_section (cf_output c))
    [] (cf_warnings c).

Fixpoint strip (v : val) : val :=
  match v with
  | VNil | VBytes _ | VText _ | VWs | VPType _ | VBoolOp _ | VCmpOp _ | VReOp _ | VSel _ | VSelEl _ | VRe _ => v
  | VList l => VList (map strip l)
  | VComments _ => VComments []
  | VAttr a => VAttr (strip_attr a)
  | VAttrs l => VAttrs (map strip_attr l)
  | VHEntry e => VHEntry (strip_hentry e)
  | VHEntries l => VHEntries (map strip_hentry l)
  | VPlugin p => VPlugin (strip_plugin p)
  | VBranch i es e => VBranch (strip_if i) (map strip_if es) (strip_else e)
  | VIf x => VIf (strip_if x)
  | VElseIf x => VElseIf (strip_if x)
  | VElse x => VElse (strip_else x)
  | VCond c => VCond (strip_cond c)
  | VExpr e => VExpr (strip_cexpr e)
  | VSection s => VSection (strip_section s)
  | VConfig c => VConfig (strip_config c)
  end.
Definition strip_msg (m : emsg) : emsg := match m with MText t => MText t | MGo t v => MGo t (strip v) end.
Definition strip_err (e : perror) : perror := PError (e_pos e) (e_rule e) (strip_msg (e_msg e)).
Definition strip_result (r : result) : result :=
  match r with
  | Returned v l => Returned (strip v) (map strip_err l)
  | Panicked m => Panicked (strip_msg m)
  | Diverged => Diverged
  end.
Definition strip_res (r : ares) : ares :=
  match r with
  | RVal v => RVal (strip v)
  | RErr v m => RErr (strip v) (strip_msg m)
  | RPanic m => RPanic (strip_msg m)
  end.

Lemma iface_strip v : iface_slice (strip v) = map strip (iface_slice v).
Proof. destruct v; reflexivity. Qed.
Lemma comment_block_strip v x y : comment_block (strip v) x y = [].
Proof.
  unfold comment_block. rewrite iface_strip. generalize (iface_slice v). intros l.
  induction l as [|a l IH]; [reflexivity|]. destruct a; cbn; auto; destruct x, y; cbn; auto.
Qed.
Lemma all_some_map {A B A' B'} (f : A -> option B) (f' : A' -> option B') (h : A -> A') (k : B -> B') :
  (forall x, f' (h x) = option_map k (f x)) -> forall l, all_some f' (map h l) = option_map (map k) (all_some f l).
Proof.
  intros E l. induction l as [|x l IH]; [reflexivity|]. cbn. rewrite E, IH. destruct (f x), (all_some f l); reflexivity.
Qed.
Lemma as_bop_strip v : as_bop (strip v) = option_map strip_bop (as_bop v).
Proof. destruct v; reflexivity. Qed.
Lemma set_com_strip a c : strip_attr (set_attr_com a c) = set_attr_com (strip_attr a) [].
Proof. destruct a; reflexivity. Qed.
Lemma bops_strip v : branch_or_plugins (strip v) = map strip_bop (branch_or_plugins v).
Proof.
  unfold branch_or_plugins. rewrite iface_strip, (all_some_map as_bop as_bop strip strip_bop as_bop_strip).
  destruct (all_some _ _); reflexivity.
Qed.
Lemma as_rvalue_strip v : as_rvalue (strip v) = option_map strip_rvalue (as_rvalue v).
Proof. destruct v; try reflexivity. destruct a; reflexivity. Qed.
Lemma as_strorre_strip v : as_strorre (strip v) = option_map strip_strorre (as_strorre v).
Proof. destruct v; try reflexivity. destruct a; reflexivity. Qed.
Lemma config_loop_strip com first vs i f o :
  config_loop [] first (map strip vs) (map strip_section i) (map strip_section f) (map strip_section o) =
  match config_loop com first vs i f o with
  | inl (i, f, o) => inl (map strip_section i, map strip_section f, map strip_section o)
  | inr m => inr (strip_msg m)
  end.
Proof.
  revert first i f o. induction vs as [|v vs IH]; intros first i f o; [reflexivity|].
  destruct v; try reflexivity. cbn [map strip config_loop].
  destruct first; cbn [ps_type strip_section set_ps_com]; destruct (ps_type s) eqn:E.
  all: try (rewrite <- IH, map_app; cbn; unfold strip_section; cbn; rewrite ?E; reflexivity).
  all: cbn; unfold strip_section; cbn; rewrite ?E; reflexivity.
Qed.
Lemma attributes_loop_strip vs : attributes_loop (map strip vs) =
  match attributes_loop vs with inl l => inl (map strip_attr l) | inr v => inr (strip v) end.
Proof.
  induction vs as [|v vs IH]; [reflexivity|]. destruct v; try reflexivity. cbn. rewrite IH.
  destruct (attributes_loop vs); reflexivity.
Qed.
Lemma hentries_loop_strip vs : hentries_loop (map strip vs) = option_map (map strip_hentry) (hentries_loop vs).
Proof.
  induction vs as [|v vs IH]; [reflexivity|]. destruct v; try reflexivity. cbn. rewrite IH.
  destruct (hentries_loop vs); reflexivity.
Qed.
Lemma else_ifs_loop_strip vs : else_ifs_loop (map strip vs) =
  match else_ifs_loop vs with inl l => inl (map strip_if l) | inr v => inr (strip v) end.
Proof.
  induction vs as [|v vs IH]; [reflexivity|]. destruct v; try reflexivity. cbn. rewrite IH.
  destruct (else_ifs_loop vs); reflexivity.
Qed.
Lemma exprs_loop_strip vs : exprs_loop (map strip vs) =
  match exprs_loop vs with inl l => inl (map strip_cexpr l) | inr v => inr (strip v) end.
Proof.
  induction vs as [|v vs IH]; [reflexivity|]. destruct v; try reflexivity. cbn. rewrite IH.
  destruct (exprs_loop vs); reflexivity.
Qed.
Lemma attribute_comment_strip a c x : act_attribute_comment (strip a) (strip c) x = strip_res (act_attribute_comment a c x).
Proof.
  unfold act_attribute_comment. rewrite comment_block_strip. destruct a; try reflexivity. cbn. now rewrite set_com_strip.
Qed.
Lemma value_string_strip s : sa_value_string (strip_str s) = sa_value_string s.
Proof. reflexivity. Qed.

Lemma run_action_strip ign w a en en' p t : (forall l, lookup l en' = strip (lookup l en)) ->
  run_action true w a en' p t = strip_res (run_action ign w a en p t).
Proof.
  intros He.
  destruct a; cbn [run_action]; rewrite ?He; try reflexivity.
  - unfold act_ret_config. destruct (lookup l en); reflexivity.
  - unfold act_config_section. rewrite comment_block_strip. destruct (lookup ps en); reflexivity.
  - unfold act_config. rewrite !comment_block_strip, !iface_strip, <- map_app.
    change (@nil section) with (map strip_section []) at 1 2 3.
    rewrite (config_loop_strip (comment_block (lookup psComment en) false true)). destruct (config_loop _ _ _ _ _ _) as [[[i f] o]|m]; reflexivity.
  - unfold act_comment. destruct ign; reflexivity.
  - unfold act_string. destruct t0; try reflexivity; destruct (inner t); reflexivity.
  - destruct (inner t); reflexivity.
  - unfold act_number. destruct (parse_float t); reflexivity.
  - unfold act_regexp. destruct (inner t); reflexivity.
  - unfold act_array. rewrite comment_block_strip. destruct (lookup attributes en); reflexivity.
  - unfold act_attribute. destruct (lookup name en) eqn:E1; try reflexivity.
    + destruct (lookup value en) as [| | | | | | |[]| | | | | | | | | | | | | | | | | |]; reflexivity.
    + destruct a; try reflexivity; cbn [strip strip_attr]; rewrite value_string_strip.
      destruct (lookup value en) as [| | | | | | |[]| | | | | | | | | | | | | | | | | |]; reflexivity.
  - apply attribute_comment_strip.
  - unfold act_attributes. rewrite attribute_comment_strip.
    replace (match strip_res (act_attribute_comment (lookup attribute en) (lookup comment en) false) with
             | RVal v => v | RErr v _ => v | RPanic _ => VNil end)
      with (strip (match act_attribute_comment (lookup attribute en) (lookup comment en) false with
             | RVal v => v | RErr v _ => v | RPanic _ => VNil end)) by (destruct (act_attribute_comment _ _ _); reflexivity).
    rewrite !iface_strip, <- map_app, attributes_loop_strip. destruct (attributes_loop _); reflexivity.
  - unfold act_branch. rewrite iface_strip, else_ifs_loop_strip, comment_block_strip.
    destruct (else_ifs_loop _); [|reflexivity].
    destruct (lookup elseBlock en); try reflexivity.
    + destruct (lookup ifBlock en) as [| | | | | | | | | | | | |[]| | | | | | | | | | | |]; reflexivity.
    + destruct (lookup ifBlock en) as [| | | | | | | | | | | | |[]| | | | | | | | | | | |]; reflexivity.
  - unfold act_bop_comment. rewrite comment_block_strip. destruct (lookup bop en); try reflexivity.
    + destruct p0; reflexivity.
    + destruct i; reflexivity.
  - unfold act_compare. rewrite !as_rvalue_strip. destruct (as_rvalue (lookup lv en)), (as_rvalue (lookup rv en)), (lookup co en); reflexivity.
  - unfold act_condition. rewrite !iface_strip, <- map_app, exprs_loop_strip. destruct (exprs_loop _); reflexivity.
  - unfold act_cond_expr. destruct (lookup cond en); reflexivity.
  - unfold act_else_block. rewrite comment_block_strip, bops_strip. reflexivity.
  - unfold act_else_comment. rewrite comment_block_strip. destruct (lookup eb en); try reflexivity. destruct e; reflexivity.
  - unfold act_if_block. rewrite comment_block_strip, bops_strip. destruct (lookup cond en); reflexivity.
  - unfold act_else_if_comment. rewrite comment_block_strip. destruct (lookup eib en) as [| | | | | | | | | | | | | |[]| | | | | | | | | | |]; reflexivity.
  - unfold act_expression. destruct (lookup expr en); try reflexivity. destruct (lookup bo en); try reflexivity.
    cbn. destruct e; reflexivity.
  - unfold act_hash. rewrite comment_block_strip. destruct (lookup entries en); reflexivity.
  - unfold act_hashentries. rewrite iface_strip, hentries_loop_strip. destruct (lookup attribute en); try reflexivity.
    destruct e; cbn. destruct (hentries_loop _); reflexivity.
  - unfold act_hashentry. rewrite comment_block_strip. destruct (lookup name en); try reflexivity.
    destruct a; try reflexivity; destruct (lookup value en); reflexivity.
  - unfold act_if_block. rewrite comment_block_strip, bops_strip. destruct (lookup cond en); reflexivity.
  - unfold act_in. rewrite !as_rvalue_strip. destruct (as_rvalue (lookup lv en)), (as_rvalue (lookup rv en)); reflexivity.
  - unfold act_cond_expr. destruct (lookup cond en); reflexivity.
  - unfold act_neg_selector. destruct (lookup sel en); reflexivity.
  - unfold act_in. rewrite !as_rvalue_strip. destruct (as_rvalue (lookup lv en)), (as_rvalue (lookup rv en)); reflexivity.
  - unfold act_plugin. rewrite !comment_block_strip. destruct (lookup attributes en), (lookup name en); try reflexivity; destruct a; reflexivity.
  - unfold act_plugin_section. rewrite comment_block_strip, iface_strip, (all_some_map as_bop as_bop strip strip_bop as_bop_strip).
    destruct (lookup pt en); try reflexivity. cbn. destruct (all_some _ _); reflexivity.
  - unfold act_regexp_expr. rewrite as_rvalue_strip, as_strorre_strip.
    destruct (as_rvalue (lookup lv en)), (as_strorre (lookup rv en)), (lookup ro en); reflexivity.
  - unfold act_rvalue. rewrite as_rvalue_strip. destruct (as_rvalue (lookup rv en)); reflexivity.
  - unfold act_selector. rewrite iface_strip.
    rewrite (all_some_map (fun v => match v with VSelEl s => Some s | _ => None end) _ strip (fun x => x)).
    2: { intros x. destruct x; reflexivity. }
    destruct (all_some _ _) as [l|]; [|reflexivity]. cbn. now rewrite map_id.
  - unfold act_selector_element. destruct (inner t); reflexivity.
Qed.

(** The simulation: the second parse ignores comments. *)
Lemma parse_strip opts opts' ff data :
  k_entry (config_of opts) = k_entry (config_of opts') ->
  k_max (config_of opts) = k_max (config_of opts') ->
  k_invalid (config_of opts) = k_invalid (config_of opts') ->
  k_recover (config_of opts) = k_recover (config_of opts') ->
  k_warn (config_of opts) = k_warn (config_of opts') ->
  k_ignore (config_of opts') = true ->
  fst (parse opts' ff data) = strip_result (fst (parse opts ff data)) /\
  snd (parse opts' ff data) = snd (parse opts ff data).
Proof.
  intros E1 E2 E3 E4 E5 E6.
  destruct (parse_sim opts opts' ff ff data (fun v v' => v' = strip v) eq eq (fun m m' => m' = strip_msg m)
              (fun _ => true) (fun _ => true)) as [S1 S2]; auto; try (intros; subst; reflexivity).
  - intros. apply okx_all.
  - intros l l' H. cbn. f_equal. induction H; subst; cbn; congruence.
  - intros l v' ->. eexists. split; [reflexivity|]. clear. induction l; constructor; auto.
  - intros v l' H. destruct v; try discriminate. eauto.
  - intros p t w w' ->. unfold warn_step. cbn. now rewrite E5.
  - intros m s s' []. unfold push_error, cur_off. rewrite <- sim_cpos, <- sim_ctext, <- sim_ff.
    destruct (s_ff s) eqn:Ef; [reflexivity|]. rewrite <- Ef in *. destruct (_ <? _); [reflexivity|]. destruct (_ =? _); [|exact sim_ff].
    destruct (existsb _ _); [exact sim_ff|]. reflexivity.
  - intros a en en' w w' p t _ He <-. cbn [o_ignore settings_of]. rewrite E6.
    rewrite (run_action_strip (k_ignore (config_of opts)) w a en en' p t He).
    destruct (run_action _ _ _ _ _ _); cbn; auto.
  - split; [|now symmetry]. clear S2. unfold simresult in S1.
    destruct (fst (parse opts ff data)) as [v l|m|], (fst (parse opts' ff data)) as [v' l'|m'|]; try tauto; cbn.
    + destruct S1 as [-> S1]. f_equal. induction S1 as [|x y l l' (A & B & C) S1 IH]; [reflexivity|]. cbn. rewrite IH. f_equal.
      destruct x, y; unfold strip_err; cbn in *; subst; reflexivity.
    + now subst.
Qed.
