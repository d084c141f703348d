(** Applying a function to every comment block of a tree.  Positions are forgotten on the
    way, and a pointer to a plugin counts as the plugin.  This is the vocabulary of C12, C14 and
    C37: "the same tree up to positions and blank-line flags" is equality after [plain_config]. *)
From Coq Require Import List NArith Bool String Arith Lia.
From Verif Require Import Bytes F64 Ast Actions AstInd Bare ReadCom ReadVal ReadCond ReadBop.
Import ListNotations.

(** where a comment block stands: before the first of a list of attributes, elements or
    entries (or before any other node, or at the end of a block); before a later one of such
    a list; or where no comment is ever read (keys, values in conditions) *)
Inductive spot := First | Later | Inner.
Section Map.
  Variable f : spot -> cblock -> cblock.
  Definition g_str (k : spot) (s : strattr) : strattr := StrAttr zero_pos (sa_name s) (sa_val s) (sa_type s) (f k (sa_com s)).
  Definition g_num (k : spot) (n : numattr) : numattr := NumAttr zero_pos (na_name n) (na_val n) (f k (na_com n)).
  Definition g_key (x : hkey) : hkey := match x with HKStr s => HKStr (g_str Inner s) | HKNum n => HKNum (g_num Inner n) end.
  Definition g_list {A B} (h : spot -> A -> B) (l : list A) : list B :=
    match l with [] => [] | x :: l' => h First x :: map (h Later) l' end.
  Fixpoint g_attr (k : spot) (a : attr) : attr :=
    match a with
    | AtNil => AtNil
    | AtStr s => AtStr (g_str k s)
    | AtNum n => AtNum (g_num k n)
    | AtArr _ n l c ft => AtArr zero_pos n (g_list g_attr l) (f k c) (f First ft)
    | AtHash _ n l c ft => AtHash zero_pos n (g_list g_hentry l) (f k c) (f First ft)
    | AtPlug _ n v c => AtPlug zero_pos n (g_plugin v) (f k c)
    end
  with g_hentry (k : spot) (e : hentry) : hentry :=
    match e with HEntry _ x v com => HEntry zero_pos (g_key x) (g_attr First v) (f k com) end
  with g_plugin (x : plugin) : plugin :=
    match x with Plugin _ n l c ft => Plugin zero_pos n (g_list g_attr l) (f First c) (f First ft) end.
  Definition g_rvalue (r : rvalue) : rvalue :=
    match r with
    | RVNil => RVNil
    | RVStr s => RVStr (g_str Inner s)
    | RVNum n => RVNum (g_num Inner n)
    | RVSel s => RVSel (bare_sel s)
    | RVArr _ n l c ft => RVArr zero_pos n (g_list g_attr l) (f Inner c) (f First ft)
    | RVRe r => RVRe (bare_re r)
    end.
  Definition g_strorre (r : strorre) : strorre :=
    match r with SRNil => SRNil | SRStr s => SRStr (g_str Inner s) | SRRe r => SRRe (bare_re r) end.
  Fixpoint g_cexpr (e : cexpr) : cexpr :=
    match e with
    | ExNil => ExNil
    | ExCond _ bo c => ExCond zero_pos (bare_bo bo) (g_cond c)
    | ExNeg _ bo c => ExNeg zero_pos (bare_bo bo) (g_cond c)
    | ExNegSel _ bo s => ExNegSel zero_pos (bare_bo bo) (bare_sel s)
    | ExIn _ bo l r => ExIn zero_pos (bare_bo bo) (g_rvalue l) (g_rvalue r)
    | ExNotIn _ bo l r => ExNotIn zero_pos (bare_bo bo) (g_rvalue l) (g_rvalue r)
    | ExRv _ bo r => ExRv zero_pos (bare_bo bo) (g_rvalue r)
    | ExCmp _ bo l o r => ExCmp zero_pos (bare_bo bo) (g_rvalue l) (bare_co o) (g_rvalue r)
    | ExRe _ bo l o r => ExRe zero_pos (bare_bo bo) (g_rvalue l) (bare_ro o) (g_strorre r)
    end
  with g_cond (c : condition) : condition := match c with Cond l => Cond (map g_cexpr l) end.
  Fixpoint g_bop (x : bop) : bop :=
    match x with
    | BNil => BNil
    | BPlugin p | BPluginPtr p => BPlugin (g_plugin p)
    | BBranch i es e => BBranch (g_if i) (map g_if es) (g_else e)
    end
  with g_if (x : ifblock) : ifblock :=
    match x with IfB _ c l com ft => IfB zero_pos (g_cond c) (map g_bop l) (f First com) (f First ft) end
  with g_else (x : elseblock) : elseblock :=
    match x with ElB _ l com ft => ElB zero_pos (map g_bop l) (f First com) (f First ft) end.
  Definition g_section (s : section) : section :=
    Section_ zero_pos (ps_type s) (map g_bop (ps_bops s)) (f First (ps_com s)) (f First (ps_foot s)).
  Definition g_config (c : config) : config :=
    Config (map g_section (cf_input c)) (map g_section (cf_filter c)) (map g_section (cf_output c)) (f First (cf_foot c)) (cf_warnings c).
End Map.
(** every comment block of a tree satisfies [P] *)
Section Each.
  Variable P : spot -> cblock -> Prop.
  Definition All' {A} (Q : A -> Prop) : list A -> Prop := fix all l := match l with [] => True | x :: l' => Q x /\ all l' end.
  Definition e_list {A} (h : spot -> A -> Prop) (l : list A) : Prop := match l with [] => True | x :: l' => h First x /\ All' (h Later) l' end.
  Definition e_key (x : hkey) : Prop := match x with HKStr s => P Inner (sa_com s) | HKNum n => P Inner (na_com n) end.
  Fixpoint e_attr (k : spot) (a : attr) : Prop :=
    match a with
    | AtNil => True
    | AtStr s => P k (sa_com s)
    | AtNum n => P k (na_com n)
    | AtArr _ _ l c ft => P k c /\ P First ft /\ e_list e_attr l
    | AtHash _ _ l c ft => P k c /\ P First ft /\ e_list e_hentry l
    | AtPlug _ _ v c => P k c /\ e_plugin v
    end
  with e_hentry (k : spot) (e : hentry) : Prop := match e with HEntry _ x v com => e_key x /\ P k com /\ e_attr First v end
  with e_plugin (x : plugin) : Prop := match x with Plugin _ _ l c ft => P First c /\ P First ft /\ e_list e_attr l end.
  Definition e_rvalue (r : rvalue) : Prop :=
    match r with
    | RVNil | RVSel _ | RVRe _ => True
    | RVStr s => P Inner (sa_com s)
    | RVNum n => P Inner (na_com n)
    | RVArr _ _ l c ft => P Inner c /\ P First ft /\ e_list e_attr l
    end.
  Definition e_strorre (r : strorre) : Prop := match r with SRStr s => P Inner (sa_com s) | _ => True end.
  Fixpoint e_cexpr (e : cexpr) : Prop :=
    match e with
    | ExNil | ExNegSel _ _ _ => True
    | ExCond _ _ c | ExNeg _ _ c => e_cond c
    | ExIn _ _ l r | ExNotIn _ _ l r | ExCmp _ _ l _ r => e_rvalue l /\ e_rvalue r
    | ExRv _ _ r => e_rvalue r
    | ExRe _ _ l _ r => e_rvalue l /\ e_strorre r
    end
  with e_cond (c : condition) : Prop := match c with Cond l => All' e_cexpr l end.
  Fixpoint e_bop (x : bop) : Prop :=
    match x with
    | BNil => True
    | BPlugin p | BPluginPtr p => e_plugin p
    | BBranch i es e => e_if i /\ All' e_if es /\ e_else e
    end
  with e_if (x : ifblock) : Prop := match x with IfB _ c l com ft => e_cond c /\ P First com /\ P First ft /\ All' e_bop l end
  with e_else (x : elseblock) : Prop := match x with ElB _ l com ft => P First com /\ P First ft /\ All' e_bop l end.
End Each.

(** comments without their blank-line flags *)
Definition text_only (c : comment) : comment := Comment (c_text c) false false.
(** the tree without positions and without the blank-line flags of comments *)
Definition plain_config : config -> config := g_config (fun _ => map text_only).

(** ** Two functions *)
Lemma g_list_ext {A B} (h h' : spot -> A -> B) l : Forall (fun x => forall k, h k x = h' k x) l -> g_list h l = g_list h' l.
Proof. intros H. destruct H as [|x l Hx H]; [reflexivity|]. cbn [g_list]. f_equal; [apply Hx|]. apply map_ext_in. rewrite Forall_forall in H. intros y Hy. now apply H. Qed.
Lemma g_list_map {A B C} (h : spot -> B -> C) (h' : spot -> A -> B) l : g_list h (g_list h' l) = g_list (fun k x => h k (h' k x)) l.
Proof. destruct l; [reflexivity|]. cbn [g_list]. now rewrite map_map. Qed.
Lemma map_ext_F {A B} (h h' : A -> B) l : Forall (fun x => h x = h' x) l -> map h l = map h' l.
Proof. induction 1; [reflexivity|]. cbn [map]. now f_equal. Qed.

(** ** Composition and extensionality, in one: [g3] if [f3] agrees with [f1] after [f2] *)
Section Comp.
  Variables f1 f2 f3 : spot -> cblock -> cblock.
  Hypothesis H : forall k c, f1 k (f2 k c) = f3 k c.
  Lemma gc_str k s : g_str f1 k (g_str f2 k s) = g_str f3 k s.
  Proof. unfold g_str. cbn. now rewrite H. Qed.
  Lemma gc_num k s : g_num f1 k (g_num f2 k s) = g_num f3 k s.
  Proof. unfold g_num. cbn. now rewrite H. Qed.
  Lemma gc_key x : g_key f1 (g_key f2 x) = g_key f3 x.
  Proof. destruct x; cbn [g_key]; now rewrite ?gc_str, ?gc_num. Qed.
  Lemma gc_attr a : forall k, g_attr f1 k (g_attr f2 k a) = g_attr f3 k a.
  Proof.
    induction a as [|s|n|p n l c ft IH|p n l c ft IH|p n v c IH] using attr_ind'; intros k; cbn [g_attr]; rewrite ?gc_str, ?gc_num, ?H; try reflexivity.
    - rewrite g_list_map. f_equal. apply g_list_ext. exact IH.
    - rewrite g_list_map. f_equal. apply g_list_ext. eapply Forall_impl; [|exact IH]. intros [hp x v com] K j. cbn [g_hentry hval] in *. now rewrite gc_key, H, K.
    - destruct v as [vp vn vl vc vf]. cbn [g_plugin pattrs] in *. rewrite g_list_map, !H. do 2 f_equal. apply g_list_ext. exact IH.
  Qed.
  Lemma gc_plugin x : g_plugin f1 (g_plugin f2 x) = g_plugin f3 x.
  Proof.
    destruct x as [vp vn vl vc vf]. cbn [g_plugin] in *. rewrite g_list_map, !H. f_equal. apply g_list_ext. apply Forall_forall. intros y _ k. apply gc_attr.
  Qed.
  Lemma bare_sel_twice s : bare_sel (bare_sel s) = bare_sel s.
  Proof. unfold bare_sel. cbn [sel_els]. now rewrite map_map. Qed.
  Lemma gc_rvalue r : g_rvalue f1 (g_rvalue f2 r) = g_rvalue f3 r.
  Proof.
    destruct r; cbn [g_rvalue]; rewrite ?gc_str, ?gc_num, ?H, ?bare_sel_twice; try reflexivity. rewrite g_list_map. f_equal. apply g_list_ext, Forall_forall. intros y _ k. apply gc_attr.
  Qed.
  Lemma gc_strorre r : g_strorre f1 (g_strorre f2 r) = g_strorre f3 r.
  Proof. destruct r; cbn [g_strorre]; now rewrite ?gc_str. Qed.
  Lemma gc_cexpr e : g_cexpr f1 (g_cexpr f2 e) = g_cexpr f3 e.
  Proof.
    induction e as [|p bo c IH|p bo c IH|p bo s|p bo l r|p bo l r|p bo r|p bo l o r|p bo l o r] using cexpr_ind'; cbn [g_cexpr]; rewrite ?gc_rvalue, ?gc_strorre, ?bare_sel_twice; try reflexivity.
    all: destruct c as [l]; cbn [g_cond exprs] in *; rewrite map_map; do 2 f_equal; now apply map_ext_F.
  Qed.
  Lemma gc_cond c : g_cond f1 (g_cond f2 c) = g_cond f3 c.
  Proof. destruct c as [l]; cbn [g_cond]; rewrite map_map; f_equal. apply map_ext. apply gc_cexpr. Qed.
  Lemma gc_bop x : g_bop f1 (g_bop f2 x) = g_bop f3 x.
  Proof.
    induction x as [|p|p|i es e IHi IHes IHe] using bop_ind'; cbn [g_bop]; rewrite ?gc_plugin; try reflexivity.
    assert (I : forall i, Forall (fun x => g_bop f1 (g_bop f2 x) = g_bop f3 x) (block i) -> g_if f1 (g_if f2 i) = g_if f3 i).
    { intros [p c l com ft] K. cbn [g_if block] in *. rewrite gc_cond, !H, map_map. f_equal. now apply map_ext_F. }
    change (BBranch (g_if f1 (g_if f2 i)) (map (g_if f1) (map (g_if f2) es)) (g_else f1 (g_else f2 e)) = BBranch (g_if f3 i) (map (g_if f3) es) (g_else f3 e)).
    rewrite (I _ IHi), map_map. f_equal.
    - apply map_ext_F. eapply Forall_impl; [|exact IHes]. exact I.
    - destruct e as [p l com ft]. cbn [g_else eblock] in *. rewrite !H, map_map. f_equal. now apply map_ext_F.
  Qed.
  Lemma gc_section s : g_section f1 (g_section f2 s) = g_section f3 s.
  Proof. unfold g_section. cbn. rewrite !H, map_map. f_equal. apply map_ext. apply gc_bop. Qed.
  Lemma gc_config c : g_config f1 (g_config f2 c) = g_config f3 c.
  Proof. unfold g_config. cbn. rewrite !H, !map_map. f_equal; apply map_ext; apply gc_section. Qed.
End Comp.

(** ** Forgetting positions, and reading back, are such maps *)
Definition same_com (_ : spot) (c : cblock) : cblock := c.
Definition rc_at (k : spot) (c : cblock) : cblock := match k with First => rc true c | Later => rc false c | Inner => c end.
Definition is_first (k : spot) : bool := match k with First => true | _ => false end.
Lemma g_list_same {A B} (h : A -> B) l : g_list (fun _ => h) l = map h l.
Proof. destruct l; reflexivity. Qed.
Lemma bare_is_attr a : forall k, bare_attr a = g_attr same_com k a.
Proof.
  induction a as [|s|n|p n l c ft IH|p n l c ft IH|p n v c IH] using attr_ind'; intros k; cbn [g_attr bare_attr]; try reflexivity.
  - f_equal. rewrite <- g_list_same. now apply g_list_ext.
  - f_equal. rewrite <- g_list_same. apply g_list_ext. eapply Forall_impl; [|exact IH]. intros [hp x v com] K j. cbn [bare_hentry g_hentry hval] in *. rewrite (K First). now destruct x.
  - destruct v as [vp vn vl vc vf]. cbn [g_plugin pattrs bare_plugin] in *. do 2 f_equal. rewrite <- g_list_same. now apply g_list_ext.
Qed.
Lemma bare_is_plugin x : bare_plugin x = g_plugin same_com x.
Proof. destruct x as [vp vn vl vc vf]. cbn [g_plugin bare_plugin] in *. f_equal. rewrite <- g_list_same. apply g_list_ext, Forall_forall. intros y _ k. apply bare_is_attr. Qed.
Lemma bare_is_rvalue r : bare_rvalue r = g_rvalue same_com r.
Proof. destruct r; try reflexivity. cbn [g_rvalue bare_rvalue]. f_equal. rewrite <- g_list_same. apply g_list_ext, Forall_forall. intros y _ k. apply bare_is_attr. Qed.
Lemma bare_is_cexpr e : bare_cexpr e = g_cexpr same_com e.
Proof.
  induction e as [|p bo c IH|p bo c IH|p bo s|p bo l r|p bo l r|p bo r|p bo l o r|p bo l o r] using cexpr_ind'; cbn [g_cexpr bare_cexpr]; rewrite ?bare_is_rvalue; try reflexivity.
  - destruct c as [l]; cbn [g_cond bare_cond exprs] in *; do 2 f_equal; now apply map_ext_F.
  - destruct c as [l]; cbn [g_cond bare_cond exprs] in *; do 2 f_equal; now apply map_ext_F.
Qed.
Lemma bare_is_bop x : bare_bop x = g_bop same_com x.
Proof.
  induction x as [|p|p|i es e IHi IHes IHe] using bop_ind'; cbn [g_bop bare_bop]; rewrite ?bare_is_plugin; try reflexivity.
  assert (I : forall i, Forall (fun x => bare_bop x = g_bop same_com x) (block i) -> bare_if i = g_if same_com i).
  { intros [p [cl] l com ft] K. cbn [g_if bare_if block g_cond bare_cond] in *. f_equal; [|now apply map_ext_F]. f_equal. apply map_ext. apply bare_is_cexpr. }
  change (BBranch (bare_if i) (map bare_if es) (bare_else e) = BBranch (g_if same_com i) (map (g_if same_com) es) (g_else same_com e)).
  rewrite (I _ IHi). f_equal.
  - apply map_ext_F. eapply Forall_impl; [|exact IHes]. exact I.
  - destruct e as [p l com ft]. cbn [g_else eblock bare_else] in *. f_equal. now apply map_ext_F.
Qed.
Lemma bare_is_config c : bare_config c = g_config same_com c.
Proof.
  unfold bare_config, g_config, bare_section, g_section. f_equal; apply map_ext; intros s; f_equal; apply map_ext; apply bare_is_bop.
Qed.
(** [re_attr] and the others: only the values [First] and [Later] are asked for *)
Lemma firsts_is {A B} (h : bool -> A -> B) (h' : spot -> A -> B) l :
  Forall (fun x => h true x = h' First x /\ h false x = h' Later x) l -> firsts h l = g_list h' l.
Proof.
  intros H. destruct H as [|x l [Hx _] H]; [reflexivity|]. cbn [firsts g_list]. rewrite Hx. f_equal. apply map_ext_F. eapply Forall_impl; [|exact H]. now intros y [_ Hy].
Qed.
Lemma re_is_attr a : re_attr true a = g_attr rc_at First a /\ re_attr false a = g_attr rc_at Later a.
Proof.
  induction a as [|s|n|p n l c ft IH|p n l c ft IH|p n v c IH] using attr_ind'; cbn [g_attr re_attr]; try (split; reflexivity).
  - rewrite (firsts_is _ _ _ IH). split; reflexivity.
  - assert (E : firsts re_hentry l = g_list (g_hentry rc_at) l).
    { apply firsts_is. eapply Forall_impl; [|exact IH]. intros [hp x v com] [K _]. cbn [re_hentry g_hentry hval] in *. rewrite K. destruct x; split; reflexivity. }
    rewrite E. split; reflexivity.
  - destruct v as [vp vn vl vc vf]. cbn [g_plugin pattrs re_plugin] in *. rewrite (firsts_is _ _ _ IH). split; reflexivity.
Qed.
Lemma re_is_attrs l : firsts re_attr l = g_list (g_attr rc_at) l.
Proof. apply firsts_is, Forall_forall. intros x _. apply re_is_attr. Qed.
Lemma re_is_plugin x : re_plugin x = g_plugin rc_at x.
Proof. destruct x as [vp vn vl vc vf]. cbn [g_plugin re_plugin]. now rewrite re_is_attrs. Qed.
Lemma re_is_rvalue r : re_rvalue r = g_rvalue rc_at r.
Proof. destruct r; try reflexivity. cbn [g_rvalue re_rvalue]. now rewrite re_is_attrs. Qed.
Lemma re_is_cexpr e : re_cexpr e = g_cexpr rc_at e.
Proof.
  induction e as [|p bo c IH|p bo c IH|p bo s|p bo l r|p bo l r|p bo r|p bo l o r|p bo l o r] using cexpr_ind'; cbn [g_cexpr re_cexpr]; rewrite ?re_is_rvalue; try reflexivity.
  - destruct c as [l]; cbn [g_cond re_cond exprs] in *; do 2 f_equal; now apply map_ext_F.
  - destruct c as [l]; cbn [g_cond re_cond exprs] in *; do 2 f_equal; now apply map_ext_F.
Qed.
Lemma re_is_bop x : re_bop x = g_bop rc_at x.
Proof.
  induction x as [|p|p|i es e IHi IHes IHe] using bop_ind'; cbn [g_bop re_bop]; rewrite ?re_is_plugin; try reflexivity.
  assert (I : forall i, Forall (fun x => re_bop x = g_bop rc_at x) (block i) -> re_if i = g_if rc_at i).
  { intros [p [cl] l com ft] K. cbn [g_if re_if block g_cond re_cond] in *. f_equal; [|now apply map_ext_F]. f_equal. apply map_ext. apply re_is_cexpr. }
  change (BBranch (re_if i) (map re_if es) (re_else e) = BBranch (g_if rc_at i) (map (g_if rc_at) es) (g_else rc_at e)).
  rewrite (I _ IHi). f_equal.
  - apply map_ext_F. eapply Forall_impl; [|exact IHes]. exact I.
  - destruct e as [p l com ft]. cbn [g_else eblock re_else] in *. f_equal. now apply map_ext_F.
Qed.
Lemma re_is_section s com : re_section s com = Section_ zero_pos (ps_type s) (map (g_bop rc_at) (ps_bops s)) com (norm (ps_foot s)).
Proof. unfold re_section. f_equal. apply map_ext. apply re_is_bop. Qed.

(** ** Functions that agree on the comments of the tree *)
Section Ext.
  Variables (f1 f2 : spot -> cblock -> cblock) (P : spot -> cblock -> Prop).
  Hypothesis H : forall k c, P k c -> f1 k c = f2 k c.
  Lemma All'_F {A} (Q : A -> Prop) l : All' Q l -> Forall Q l.
  Proof. induction l; cbn; [constructor|]. intros []. constructor; auto. Qed.
  Lemma e_list_ext {A B} (Q : spot -> A -> Prop) (h h' : spot -> A -> B) l : Forall (fun x => forall k, Q k x -> h k x = h' k x) l -> e_list Q l -> g_list h l = g_list h' l.
  Proof.
    intros K E. destruct K as [|x l Kx K]; [reflexivity|]. destruct E as [E1 E2]. cbn [g_list]. f_equal; [now apply Kx|]. apply All'_F in E2. apply map_ext_in. rewrite Forall_forall in *. auto.
  Qed.
  Lemma ge_str k s : P k (sa_com s) -> g_str f1 k s = g_str f2 k s.
  Proof. intros E. unfold g_str. now rewrite (H _ _ E). Qed.
  Lemma ge_num k s : P k (na_com s) -> g_num f1 k s = g_num f2 k s.
  Proof. intros E. unfold g_num. now rewrite (H _ _ E). Qed.
  Lemma ge_key x : e_key P x -> g_key f1 x = g_key f2 x.
  Proof. destruct x; intros E; cbn [g_key]; [now rewrite ge_str|now rewrite ge_num]. Qed.
  Lemma ge_attr a : forall k, e_attr P k a -> g_attr f1 k a = g_attr f2 k a.
  Proof.
    induction a as [|s|n|p n l c ft IH|p n l c ft IH|p n v c IH] using attr_ind'; intros k E; cbn [g_attr e_attr] in *.
    - reflexivity.
    - now rewrite ge_str.
    - now rewrite ge_num.
    - destruct E as (E1 & E2 & E3). rewrite (H _ _ E1), (H _ _ E2). f_equal. exact (e_list_ext _ _ _ _ IH E3).
    - destruct E as (E1 & E2 & E3). rewrite (H _ _ E1), (H _ _ E2). f_equal. refine (e_list_ext _ _ _ _ _ E3). eapply Forall_impl; [|exact IH]. intros [hp x v com] K j (F1 & F2 & F3). cbn [g_hentry hval] in *.
      change (HEntry zero_pos (g_key f1 x) (g_attr f1 First v) (f1 j com) = HEntry zero_pos (g_key f2 x) (g_attr f2 First v) (f2 j com)).
      now rewrite (ge_key _ F1), (H _ _ F2), (K _ F3).
    - destruct v as [vp vn vl vc vf]. cbn [g_plugin e_plugin pattrs] in *. destruct E as (E1 & E2 & E3 & E4). rewrite (H _ _ E1), (H _ _ E2), (H _ _ E3). do 2 f_equal. exact (e_list_ext _ _ _ _ IH E4).
  Qed.
  Lemma ge_attrs l : e_list (e_attr P) l -> g_list (g_attr f1) l = g_list (g_attr f2) l.
  Proof. apply e_list_ext, Forall_forall. intros x _. apply ge_attr. Qed.
  Lemma ge_plugin x : e_plugin P x -> g_plugin f1 x = g_plugin f2 x.
  Proof. destruct x as [vp vn vl vc vf]. cbn [g_plugin e_plugin]. intros (E2 & E3 & E4). now rewrite (H _ _ E2), (H _ _ E3), ge_attrs. Qed.
  Lemma ge_rvalue r : e_rvalue P r -> g_rvalue f1 r = g_rvalue f2 r.
  Proof.
    destruct r; cbn [g_rvalue e_rvalue]; try reflexivity; intros E; [now rewrite ge_str|now rewrite ge_num|]. destruct E as (E1 & E2 & E3). now rewrite (H _ _ E1), (H _ _ E2), ge_attrs.
  Qed.
  Lemma ge_strorre r : e_strorre P r -> g_strorre f1 r = g_strorre f2 r.
  Proof. destruct r; cbn [g_strorre e_strorre]; try reflexivity. intros E. now rewrite ge_str. Qed.
  Lemma All'_map {A B} (Q : A -> Prop) (h h' : A -> B) l : Forall (fun x => Q x -> h x = h' x) l -> All' Q l -> map h l = map h' l.
  Proof. intros K E. apply All'_F in E. apply map_ext_in. rewrite Forall_forall in *. auto. Qed.
  Lemma ge_cexpr e : e_cexpr P e -> g_cexpr f1 e = g_cexpr f2 e.
  Proof.
    induction e as [|p bo c IH|p bo c IH|p bo s|p bo l r|p bo l r|p bo r|p bo l o r|p bo l o r] using cexpr_ind'; cbn [g_cexpr e_cexpr]; intros E; try reflexivity.
    - destruct c as [l]; cbn [g_cond e_cond exprs] in *; do 2 f_equal. exact (All'_map _ _ _ _ IH E).
    - destruct c as [l]; cbn [g_cond e_cond exprs] in *; do 2 f_equal. exact (All'_map _ _ _ _ IH E).
    - destruct E as [E1 E2]. now rewrite (ge_rvalue _ E1), (ge_rvalue _ E2).
    - destruct E as [E1 E2]. now rewrite (ge_rvalue _ E1), (ge_rvalue _ E2).
    - now rewrite (ge_rvalue _ E).
    - destruct E as [E1 E2]. now rewrite (ge_rvalue _ E1), (ge_rvalue _ E2).
    - destruct E as [E1 E2]. now rewrite (ge_rvalue _ E1), (ge_strorre _ E2).
  Qed.
  Lemma ge_cond c : e_cond P c -> g_cond f1 c = g_cond f2 c.
  Proof. destruct c as [l]; cbn [g_cond e_cond]. intros E. f_equal. refine (All'_map _ _ _ _ _ E). apply Forall_forall. intros x _. apply ge_cexpr. Qed.
  Lemma ge_bop x : e_bop P x -> g_bop f1 x = g_bop f2 x.
  Proof.
    induction x as [|p|p|i es e IHi IHes IHe] using bop_ind'; cbn [g_bop e_bop]; intros E; try reflexivity.
    - now rewrite ge_plugin.
    - now rewrite ge_plugin.
    - change (e_if P i /\ All' (e_if P) es /\ e_else P e) in E.
      change (BBranch (g_if f1 i) (map (g_if f1) es) (g_else f1 e) = BBranch (g_if f2 i) (map (g_if f2) es) (g_else f2 e)).
      destruct E as (E1 & E2 & E3).
      assert (I : forall i, Forall (fun x => e_bop P x -> g_bop f1 x = g_bop f2 x) (block i) -> e_if P i -> g_if f1 i = g_if f2 i).
      { intros [p c l com ft] K (F1 & F2 & F3 & F4). cbn [g_if block] in *. rewrite (ge_cond _ F1), (H _ _ F2), (H _ _ F3). f_equal. exact (All'_map _ _ _ _ K F4). }
      rewrite (I _ IHi E1). f_equal.
      + refine (All'_map _ _ _ _ _ E2). eapply Forall_impl; [|exact IHes]. exact I.
      + destruct e as [p l com ft]. cbn [g_else eblock] in *. destruct E3 as (F1 & F2 & F3). rewrite (H _ _ F1), (H _ _ F2). f_equal. exact (All'_map _ _ _ _ IHe F3).
  Qed.
  Lemma ge_bops l : All' (e_bop P) l -> map (g_bop f1) l = map (g_bop f2) l.
  Proof. intros E. refine (All'_map _ _ _ _ _ E). apply Forall_forall. intros x _. apply ge_bop. Qed.
End Ext.
