(** A tree without positions, and the proof that the action blocks commute with
    forgetting them.  (A pointer to a plugin counts as the plugin.) *)
From Coq Require Import List NArith Bool String Arith Lia.
From Verif Require Import Bytes Utf8 F64 Ast Peg Actions Strip.
Import ListNotations.

Notation Z0 := zero_pos (only parsing).
Definition bare_str (s : strattr) : strattr := StrAttr zero_pos (sa_name s) (sa_val s) (sa_type s) (sa_com s).
Definition bare_num (n : numattr) : numattr := NumAttr zero_pos (na_name n) (na_val n) (na_com n).
Definition bare_key (k : hkey) : hkey :=
  match k with HKStr s => HKStr (bare_str s) | HKNum n => HKNum (bare_num n) end.
Fixpoint bare_attr (a : attr) : attr :=
  match a with
  | AtNil => AtNil
  | AtStr s => AtStr (bare_str s)
  | AtNum n => AtNum (bare_num n)
  | AtArr _ n l c f => AtArr zero_pos n (map bare_attr l) c f
  | AtHash _ n l c f => AtHash zero_pos n (map bare_hentry l) c f
  | AtPlug _ n v c => AtPlug zero_pos n (bare_plugin v) c
  end
with bare_hentry (e : hentry) : hentry :=
  match e with HEntry _ k v c => HEntry zero_pos (bare_key k) (bare_attr v) c end
with bare_plugin (x : plugin) : plugin :=
  match x with Plugin _ n l c f => Plugin zero_pos n (map bare_attr l) c f end.
Definition bare_sel (s : selector) : selector := Sel zero_pos (map (fun e => SelEl zero_pos (se_name e)) (sel_els s)).
Definition bare_re (r : regexp) : regexp := Regexp zero_pos (re_text r).
Definition bare_rvalue (r : rvalue) : rvalue :=
  match r with
  | RVNil => RVNil
  | RVStr s => RVStr (bare_str s)
  | RVNum n => RVNum (bare_num n)
  | RVSel s => RVSel (bare_sel s)
  | RVArr _ n l c f => RVArr zero_pos n (map bare_attr l) c f
  | RVRe r => RVRe (bare_re r)
  end.
Definition bare_strorre (r : strorre) : strorre :=
  match r with SRNil => SRNil | SRStr s => SRStr (bare_str s) | SRRe r => SRRe (bare_re r) end.
Definition bare_bo (o : boolopn) : boolopn := BoolOp (bo_op o) zero_pos.
Definition bare_co (o : cmpopn) : cmpopn := CmpOp (co_op o) zero_pos.
Definition bare_ro (o : reopn) : reopn := ReOp (ro_op o) zero_pos.
Fixpoint bare_cexpr (e : cexpr) : cexpr :=
  match e with
  | ExNil => ExNil
  | ExCond _ bo c => ExCond zero_pos (bare_bo bo) (bare_cond c)
  | ExNeg _ bo c => ExNeg zero_pos (bare_bo bo) (bare_cond c)
  | ExNegSel _ bo s => ExNegSel zero_pos (bare_bo bo) (bare_sel s)
  | ExIn _ bo l r => ExIn zero_pos (bare_bo bo) (bare_rvalue l) (bare_rvalue r)
  | ExNotIn _ bo l r => ExNotIn zero_pos (bare_bo bo) (bare_rvalue l) (bare_rvalue r)
  | ExRv _ bo r => ExRv zero_pos (bare_bo bo) (bare_rvalue r)
  | ExCmp _ bo l o r => ExCmp zero_pos (bare_bo bo) (bare_rvalue l) (bare_co o) (bare_rvalue r)
  | ExRe _ bo l o r => ExRe zero_pos (bare_bo bo) (bare_rvalue l) (bare_ro o) (bare_strorre r)
  end
with bare_cond (c : condition) : condition := match c with Cond l => Cond (map bare_cexpr l) end.
Fixpoint bare_bop (x : bop) : bop :=
  match x with
  | BNil => BNil
  | BPlugin p => BPlugin (bare_plugin p)
  | BPluginPtr p => BPlugin (bare_plugin p)
  | BBranch i es e => BBranch (bare_if i) (map bare_if es) (bare_else e)
  end
with bare_if (x : ifblock) : ifblock :=
  match x with IfB _ c l com foot => IfB zero_pos (bare_cond c) (map bare_bop l) com foot end
with bare_else (x : elseblock) : elseblock :=
  match x with ElB _ l com foot => ElB zero_pos (map bare_bop l) com foot end.
Definition bare_section (s : section) : section :=
  Section_ zero_pos (ps_type s) (map bare_bop (ps_bops s)) (ps_com s) (ps_foot s).
Definition bare_config (c : config) : config :=
  Config (map bare_section (cf_input c)) (map bare_section (cf_filter c)) (map bare_section (cf_output c))
    (cf_foot c) (cf_warnings c).

Fixpoint bare (v : val) : val :=
  match v with
  | VNil | VBytes _ | VText _ | VWs | VPType _ | VComments _ => v
  | VBoolOp o => VBoolOp (bare_bo o) | VCmpOp o => VCmpOp (bare_co o) | VReOp o => VReOp (bare_ro o)
  | VSel s => VSel (bare_sel s) | VSelEl s => VSelEl (SelEl zero_pos (se_name s)) | VRe r => VRe (bare_re r)
  | VList l => VList (map bare l)
  | VAttr a => VAttr (bare_attr a)
  | VAttrs l => VAttrs (map bare_attr l)
  | VHEntry e => VHEntry (bare_hentry e)
  | VHEntries l => VHEntries (map bare_hentry l)
  | VPlugin p => VPlugin (bare_plugin p)
  | VBranch i es e => VBranch (bare_if i) (map bare_if es) (bare_else e)
  | VIf x => VIf (bare_if x)
  | VElseIf x => VElseIf (bare_if x)
  | VElse x => VElse (bare_else x)
  | VCond c => VCond (bare_cond c)
  | VExpr e => VExpr (bare_cexpr e)
  | VSection s => VSection (bare_section s)
  | VConfig c => VConfig (bare_config c)
  end.
Definition bare_msg (m : emsg) : emsg := match m with MText t => MText t | MGo t v => MGo t (bare v) end.
Definition bare_res (r : ares) : ares :=
  match r with
  | RVal v => RVal (bare v)
  | RErr v m => RErr (bare v) (bare_msg m)
  | RPanic m => RPanic (bare_msg m)
  end.

Lemma iface_bare v : iface_slice (bare v) = map bare (iface_slice v).
Proof. destruct v; reflexivity. Qed.
Lemma comment_block_bare v x y : comment_block (bare v) x y = comment_block v x y.
Proof.
  unfold comment_block. rewrite iface_bare. generalize (iface_slice v), (@nil comment). intros l.
  induction l as [|a l IH]; intros acc; [reflexivity|]. destruct a; cbn [map bare comment_block_loop]; auto.
Qed.
Lemma as_bop_bare v : as_bop (bare v) = option_map bare_bop (as_bop v).
Proof. destruct v; reflexivity. Qed.
Lemma set_com_bare a c : bare_attr (set_attr_com a c) = set_attr_com (bare_attr a) c.
Proof. destruct a; reflexivity. Qed.
Lemma bops_bare v : branch_or_plugins (bare v) = map bare_bop (branch_or_plugins v).
Proof.
  unfold branch_or_plugins. rewrite iface_bare, (all_some_map as_bop as_bop bare bare_bop as_bop_bare).
  destruct (all_some _ _); reflexivity.
Qed.
Lemma as_rvalue_bare v : as_rvalue (bare v) = option_map bare_rvalue (as_rvalue v).
Proof. destruct v; try reflexivity. destruct a; reflexivity. Qed.
Lemma as_strorre_bare v : as_strorre (bare v) = option_map bare_strorre (as_strorre v).
Proof. destruct v; try reflexivity. destruct a; reflexivity. Qed.
Lemma config_loop_bare com first vs i f o :
  config_loop com first (map bare vs) (map bare_section i) (map bare_section f) (map bare_section o) =
  match config_loop com first vs i f o with
  | inl (i, f, o) => inl (map bare_section i, map bare_section f, map bare_section o)
  | inr m => inr (bare_msg m)
  end.
Proof.
  revert first i f o. induction vs as [|v vs IH]; intros first i f o; [reflexivity|].
  destruct v; try reflexivity. cbn [map bare config_loop].
  destruct first; cbn [ps_type bare_section set_ps_com]; destruct (ps_type s) eqn:E.
  all: try (rewrite <- IH, map_app; cbn; unfold bare_section; cbn; rewrite ?E; reflexivity).
  all: cbn; unfold bare_section; cbn; rewrite ?E; reflexivity.
Qed.
Lemma attributes_loop_bare vs : attributes_loop (map bare vs) =
  match attributes_loop vs with inl l => inl (map bare_attr l) | inr v => inr (bare v) end.
Proof.
  induction vs as [|v vs IH]; [reflexivity|]. destruct v; try reflexivity. cbn. rewrite IH.
  destruct (attributes_loop vs); reflexivity.
Qed.
Lemma hentries_loop_bare vs : hentries_loop (map bare vs) = option_map (map bare_hentry) (hentries_loop vs).
Proof.
  induction vs as [|v vs IH]; [reflexivity|]. destruct v; try reflexivity. cbn. rewrite IH.
  destruct (hentries_loop vs); reflexivity.
Qed.
Lemma else_ifs_loop_bare vs : else_ifs_loop (map bare vs) =
  match else_ifs_loop vs with inl l => inl (map bare_if l) | inr v => inr (bare v) end.
Proof.
  induction vs as [|v vs IH]; [reflexivity|]. destruct v; try reflexivity. cbn. rewrite IH.
  destruct (else_ifs_loop vs); reflexivity.
Qed.
Lemma exprs_loop_bare vs : exprs_loop (map bare vs) =
  match exprs_loop vs with inl l => inl (map bare_cexpr l) | inr v => inr (bare v) end.
Proof.
  induction vs as [|v vs IH]; [reflexivity|]. destruct v; try reflexivity. cbn. rewrite IH.
  destruct (exprs_loop vs); reflexivity.
Qed.
Lemma attribute_comment_bare a c x : act_attribute_comment (bare a) (bare c) x = bare_res (act_attribute_comment a c x).
Proof.
  unfold act_attribute_comment. rewrite comment_block_bare. destruct a; try reflexivity. cbn. now rewrite set_com_bare.
Qed.
Lemma value_string_bare s : sa_value_string (bare_str s) = sa_value_string s.
Proof. reflexivity. Qed.

Lemma run_action_bare ign w a en en' p t : (forall l, lookup l en' = bare (lookup l en)) ->
  run_action ign w a en' zero_pos t = bare_res (run_action ign w a en p t).
Proof.
  intros He.
  destruct a; cbn [run_action]; rewrite ?He; try reflexivity.
  - unfold act_ret_config. destruct (lookup l en); reflexivity.
  - unfold act_config_section. rewrite comment_block_bare. destruct (lookup ps en); reflexivity.
  - unfold act_config. rewrite !comment_block_bare, !iface_bare, <- map_app.
    change (@nil section) with (map bare_section []) at 1 2 3.
    rewrite (config_loop_bare (comment_block (lookup psComment en) false true)). destruct (config_loop _ _ _ _ _ _) as [[[i f] o]|m]; reflexivity.
  - unfold act_comment. destruct ign; reflexivity.
  - unfold act_string. destruct t0; try reflexivity; destruct (inner t); reflexivity.
  - destruct (inner t); reflexivity.
  - unfold act_number. destruct (parse_float t); reflexivity.
  - unfold act_regexp. destruct (inner t); reflexivity.
  - unfold act_array. rewrite comment_block_bare. destruct (lookup attributes en); reflexivity.
  - unfold act_attribute. destruct (lookup name en) eqn:E1; try reflexivity.
    + destruct (lookup value en) as [| | | | | | |[]| | | | | | | | | | | | | | | | | |]; reflexivity.
    + destruct a; try reflexivity; cbn [bare bare_attr]; rewrite value_string_bare.
      destruct (lookup value en) as [| | | | | | |[]| | | | | | | | | | | | | | | | | |]; reflexivity.
  - apply attribute_comment_bare.
  - unfold act_attributes. rewrite attribute_comment_bare.
    replace (match bare_res (act_attribute_comment (lookup attribute en) (lookup comment en) false) with
             | RVal v => v | RErr v _ => v | RPanic _ => VNil end)
      with (bare (match act_attribute_comment (lookup attribute en) (lookup comment en) false with
             | RVal v => v | RErr v _ => v | RPanic _ => VNil end)) by (destruct (act_attribute_comment _ _ _); reflexivity).
    rewrite !iface_bare, <- map_app, attributes_loop_bare. destruct (attributes_loop _); reflexivity.
  - unfold act_branch. rewrite iface_bare, else_ifs_loop_bare, comment_block_bare.
    destruct (else_ifs_loop _); [|reflexivity].
    destruct (lookup elseBlock en); try reflexivity.
    + destruct (lookup ifBlock en) as [| | | | | | | | | | | | |[]| | | | | | | | | | | |]; reflexivity.
    + destruct (lookup ifBlock en) as [| | | | | | | | | | | | |[]| | | | | | | | | | | |]; reflexivity.
  - unfold act_bop_comment. rewrite comment_block_bare. destruct (lookup bop en); try reflexivity.
    + destruct p0; reflexivity.
    + destruct i; reflexivity.
  - unfold act_compare. rewrite !as_rvalue_bare. destruct (as_rvalue (lookup lv en)), (as_rvalue (lookup rv en)), (lookup co en); reflexivity.
  - unfold act_condition. rewrite !iface_bare, <- map_app, exprs_loop_bare. destruct (exprs_loop _); reflexivity.
  - unfold act_cond_expr. destruct (lookup cond en); reflexivity.
  - unfold act_else_block. rewrite comment_block_bare, bops_bare. reflexivity.
  - unfold act_else_comment. rewrite comment_block_bare. destruct (lookup eb en); try reflexivity. destruct e; reflexivity.
  - unfold act_if_block. rewrite comment_block_bare, bops_bare. destruct (lookup cond en); reflexivity.
  - unfold act_else_if_comment. rewrite comment_block_bare. destruct (lookup eib en) as [| | | | | | | | | | | | | |[]| | | | | | | | | | |]; reflexivity.
  - unfold act_expression. destruct (lookup expr en); try reflexivity. destruct (lookup bo en); try reflexivity.
    cbn. destruct e; reflexivity.
  - unfold act_hash. rewrite comment_block_bare. destruct (lookup entries en); reflexivity.
  - unfold act_hashentries. rewrite iface_bare, hentries_loop_bare. destruct (lookup attribute en); try reflexivity.
    destruct e; cbn. destruct (hentries_loop _); reflexivity.
  - unfold act_hashentry. rewrite comment_block_bare. destruct (lookup name en); try reflexivity.
    destruct a; try reflexivity; destruct (lookup value en); reflexivity.
  - unfold act_if_block. rewrite comment_block_bare, bops_bare. destruct (lookup cond en); reflexivity.
  - unfold act_in. rewrite !as_rvalue_bare. destruct (as_rvalue (lookup lv en)), (as_rvalue (lookup rv en)); reflexivity.
  - unfold act_cond_expr. destruct (lookup cond en); reflexivity.
  - unfold act_neg_selector. destruct (lookup sel en); reflexivity.
  - unfold act_in. rewrite !as_rvalue_bare. destruct (as_rvalue (lookup lv en)), (as_rvalue (lookup rv en)); reflexivity.
  - unfold act_plugin. rewrite !comment_block_bare. destruct (lookup attributes en), (lookup name en); try reflexivity; destruct a; reflexivity.
  - unfold act_plugin_section. rewrite comment_block_bare, iface_bare, (all_some_map as_bop as_bop bare bare_bop as_bop_bare).
    destruct (lookup pt en); try reflexivity. cbn. destruct (all_some _ _); reflexivity.
  - unfold act_regexp_expr. rewrite as_rvalue_bare, as_strorre_bare.
    destruct (as_rvalue (lookup lv en)), (as_strorre (lookup rv en)), (lookup ro en); reflexivity.
  - unfold act_rvalue. rewrite as_rvalue_bare. destruct (as_rvalue (lookup rv en)); reflexivity.
  - unfold act_selector. rewrite iface_bare.
    rewrite (all_some_map (fun v => match v with VSelEl s => Some s | _ => None end) _ bare (fun x => SelEl zero_pos (se_name x))).
    2: { intros x. destruct x; reflexivity. }
    destruct (all_some _ _) as [l|]; reflexivity.
  - unfold act_selector_element. destruct (inner t); reflexivity.
Qed.

