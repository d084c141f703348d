(** nil entries of a tree and printing (C38).  Specification: [drop_config]. *)
From Coq Require Import List NArith Bool String Arith Lia.
From Verif Require Import Bytes F64 Ast Actions Regex AstPrint AstInd.
Import ListNotations.

(** ** The tree without the nil entries of its lists: attributes of plugins,
    elements of arrays, entries of blocks and sections, expressions *)
Fixpoint drop_attr (a : attr) : attr :=
  match a with
  | AtArr p n l c f => AtArr p n (flat_map (fun x => match x with AtNil => [] | _ => [drop_attr x] end) l) c f
  | AtHash p n l c f => AtHash p n (map drop_hentry l) c f
  | AtPlug p n v c => AtPlug p n (drop_plugin v) c
  | _ => a
  end
with drop_hentry (e : hentry) : hentry := match e with HEntry p k v c => HEntry p k (drop_attr v) c end
with drop_plugin (x : plugin) : plugin :=
  match x with
  | Plugin p n l c f => Plugin p n (flat_map (fun x => match x with AtNil => [] | _ => [drop_attr x] end) l) c f
  end.
Definition drop_rvalue (r : rvalue) : rvalue :=
  match r with
  | RVArr p n l c f => RVArr p n (flat_map (fun x => match x with AtNil => [] | _ => [drop_attr x] end) l) c f
  | _ => r
  end.
Fixpoint drop_cexpr (e : cexpr) : cexpr :=
  match e with
  | ExCond p bo c => ExCond p bo (drop_cond c)
  | ExNeg p bo c => ExNeg p bo (drop_cond c)
  | ExIn p bo l r => ExIn p bo (drop_rvalue l) (drop_rvalue r)
  | ExNotIn p bo l r => ExNotIn p bo (drop_rvalue l) (drop_rvalue r)
  | ExRv p bo r => ExRv p bo (drop_rvalue r)
  | ExCmp p bo l o r => ExCmp p bo (drop_rvalue l) o (drop_rvalue r)
  | ExRe p bo l o r => ExRe p bo (drop_rvalue l) o r
  | _ => e
  end
with drop_cond (c : condition) : condition :=
  match c with Cond l => Cond (flat_map (fun e => match e with ExNil => [] | _ => [drop_cexpr e] end) l) end.
Fixpoint drop_bop (x : bop) : bop :=
  match x with
  | BNil => BNil
  | BPlugin p => BPlugin (drop_plugin p)
  | BPluginPtr p => BPluginPtr (drop_plugin p)
  | BBranch i es (ElB p l c f) =>
      BBranch (drop_if i) (map drop_if es) (ElB p (flat_map (fun x => match x with BNil => [] | _ => [drop_bop x] end) l) c f)
  end
with drop_if (x : ifblock) : ifblock :=
  match x with
  | IfB p c l com foot => IfB p (drop_cond c) (flat_map (fun x => match x with BNil => [] | _ => [drop_bop x] end) l) com foot
  end.
Definition drop_bops (l : list bop) : list bop := flat_map (fun x => match x with BNil => [] | _ => [drop_bop x] end) l.
Definition drop_section (s : section) : section :=
  Section_ (ps_pos s) (ps_type s) (drop_bops (ps_bops s)) (ps_com s) (ps_foot s).
Definition drop_config (c : config) : config :=
  Config (map drop_section (cf_input c)) (map drop_section (cf_filter c)) (map drop_section (cf_output c))
         (cf_foot c) (cf_warnings c).

(** No else block consists of nil entries only (with no comment). *)
Fixpoint else_ok (x : bop) : Prop :=
  match x with
  | BBranch i es (ElB p l c f) =>
      else_ok_if i /\
      (fix all es := match es with [] => True | y :: es' => else_ok_if y /\ all es' end) es /\
      (fix all l := match l with [] => True | y :: l' => else_ok y /\ all l' end) l /\
      (l <> [] -> c = [] -> f = [] -> exists y, In y l /\ y <> BNil)
  | _ => True
  end
with else_ok_if (x : ifblock) : Prop :=
  match x with IfB _ _ l _ _ => (fix all l := match l with [] => True | y :: l' => else_ok y /\ all l' end) l end.
Definition elses_ok (c : config) : Prop :=
  Forall (fun s => Forall else_ok (ps_bops s)) (cf_input c ++ cf_filter c ++ cf_output c).

(** ** Proofs *)
Lemma drop_attr_nil x : drop_attr x = AtNil <-> x = AtNil.
Proof. destruct x; cbn; split; congruence. Qed.
Lemma drop_attr_head x : attr_com (drop_attr x) = attr_com x /\ attr_name (drop_attr x) = attr_name x.
Proof. destruct x; auto. Qed.
Definition drop_attrs (l : list attr) : list attr := flat_map (fun x => match x with AtNil => [] | _ => [drop_attr x] end) l.
Lemma flat_drop {B} (f : attr -> list B) (g : attr -> list B) l :
  f AtNil = [] -> Forall (fun x => x <> AtNil -> g (drop_attr x) = f x) l ->
  flat_map g (drop_attrs l) = flat_map f l.
Proof.
  intros H0 H. induction H as [|x l Hx Hl IH]; [reflexivity|]. unfold drop_attrs in *. cbn [flat_map]. rewrite flat_map_app, IH. f_equal.
  destruct x; try (cbn [flat_map]; rewrite app_nil_r; apply Hx; discriminate). now rewrite H0.
Qed.
Lemma not_nil {B} (y : attr) (z : list B) : y <> AtNil -> match y with AtNil => [] | _ => z end = z.
Proof. destruct y; congruence. Qed.
Lemma drop_attr_value a : attr_value (drop_attr a) = attr_value a.
Proof.
  assert (M : forall l, Forall (fun x => attr_value (drop_attr x) = attr_value x) l -> forall pre post : attr -> bytes,
    (forall x, pre (drop_attr x) = pre x) -> (forall x, post (drop_attr x) = post x) ->
    flat_map (fun x => match x with AtNil => [] | _ => [pre x ++ attr_value x ++ post x] end) (drop_attrs l)
    = flat_map (fun x => match x with AtNil => [] | _ => [pre x ++ attr_value x ++ post x] end) l).
  { intros l H pre post E1 E2. apply flat_drop; [reflexivity|]. eapply Forall_impl; [|exact H]. intros x Hx Nx. cbv beta.
    pose proof (drop_attr_nil x) as D. rewrite !not_nil by tauto. now rewrite Hx, E1, E2. }
  induction a as [|s|n|p n l c f H|p n l c f H|p n v c H] using attr_ind'; cbn [drop_attr attr_value]; auto.
  - fold (drop_attrs l). pose proof (M l H (fun x => cblock_string (attr_com x)) (fun _ => [])) as E.
    assert (X : forall l, flat_map (fun x => match x with AtNil => [] | _ => [cblock_string (attr_com x) ++ attr_value x ++ []] end) l
      = flat_map (fun x => match x with AtNil => [] | _ => [cblock_string (attr_com x) ++ attr_value x] end) l).
    { intros l0. apply flat_map_ext. intros []; now rewrite ?app_nil_r. }
    rewrite !X in E. rewrite E; auto. intros x. now rewrite (proj1 (drop_attr_head x)).
  - assert (E : flat_map (fun e => hentry_string e ++ [NL]) (map drop_hentry l) = flat_map (fun e => hentry_string e ++ [NL]) l).
    { rewrite flat_map_concat_map, map_map, <- flat_map_concat_map. induction H as [|e l He Hl IH]; [reflexivity|]. cbn [flat_map]. rewrite IH.
      f_equal. f_equal. destruct e. cbn in *. now rewrite He. }
    now rewrite E.
  - destruct v as [q m l co f]. cbn [pattrs drop_plugin plugin_string] in *. fold (drop_attrs l).
    assert (E : flat_map (fun x => match x with AtNil => [] | _ => cblock_string (attr_com x) ++ (attr_name x ++ arrow ++ attr_value x) ++ [NL] end) (drop_attrs l)
      = flat_map (fun x => match x with AtNil => [] | _ => cblock_string (attr_com x) ++ (attr_name x ++ arrow ++ attr_value x) ++ [NL] end) l).
    { apply flat_drop; [reflexivity|]. eapply Forall_impl; [|exact H]. intros x Hx Nx. cbv beta. pose proof (drop_attr_nil x) as D. pose proof (drop_attr_head x) as [D1 D2].
      rewrite !not_nil by tauto. now rewrite Hx, D1, D2. }
    now rewrite E.
Qed.
Lemma drop_plugin_string p : plugin_string (drop_plugin p) = plugin_string p.
Proof. exact (drop_attr_value (AtPlug zero_pos [] p [])). Qed.
Lemma drop_rvalue_string r : rvalue_string (drop_rvalue r) = rvalue_string r.
Proof. destruct r as [|s|n|s|p n l c f|r]; auto. cbn [drop_rvalue rvalue_string]. f_equal. exact (drop_attr_value (AtArr p n l c f)). Qed.
Lemma drop_cexpr_string e : cexpr_string (drop_cexpr e) = cexpr_string e.
Proof.
  induction e as [|p bo c H|p bo c H|p bo s|p bo l r|p bo l r|p bo r|p bo l o r|p bo l o r] using cexpr_ind';
    cbn [drop_cexpr cexpr_string]; rewrite ?drop_rvalue_string; auto.
  all: do 2 f_equal; f_equal; destruct c as [l]; cbn [exprs drop_cond cond_string] in *;
    induction H as [|x l Hx Hl IH]; [reflexivity|]; cbn [flat_map]; rewrite flat_map_app, IH; f_equal;
    destruct x; try reflexivity; cbn [flat_map]; rewrite app_nil_r; exact Hx.
Qed.
Lemma drop_cond_string c : cond_string (drop_cond c) = cond_string c.
Proof.
  destruct c as [l]. cbn [drop_cond cond_string]. induction l as [|x l IH]; [reflexivity|]. cbn [flat_map]. rewrite flat_map_app, IH. f_equal.
  destruct x; try reflexivity; cbn [flat_map]; rewrite app_nil_r; apply drop_cexpr_string.
Qed.

Lemma drop_texts l : Forall (fun x => bop_string (drop_bop x) = bop_string x) l -> bop_texts (drop_bops l) = bop_texts l.
Proof.
  induction 1 as [|x l Hx Hl IH]; [reflexivity|]. unfold bop_texts, drop_bops in *. cbn [flat_map]. rewrite flat_map_app, IH. f_equal.
  destruct x; try reflexivity; cbn [flat_map]; rewrite app_nil_r.
  - now rewrite <- Hx.
  - now rewrite <- Hx.
  - rewrite <- Hx. now destruct e.
Qed.
Lemma all_forall {A} (P : A -> Prop) l :
  (fix all l := match l with [] => True | y :: l' => P y /\ all l' end) l <-> Forall P l.
Proof. induction l; cbn; split; auto; [intros []; constructor; tauto|inversion 1; tauto]. Qed.
Lemma drop_bop_string x : else_ok x -> bop_string (drop_bop x) = bop_string x.
Proof.
  induction x as [|p|p|i es e Hi Hes He] using bop_ind'; intros Ok; cbn [drop_bop bop_string]; auto using drop_plugin_string.
  assert (T : forall l, Forall (fun x => else_ok x -> bop_string (drop_bop x) = bop_string x) l -> Forall else_ok l ->
    bop_texts (drop_bops l) = bop_texts l).
  { intros l A B. apply drop_texts. rewrite Forall_forall in *. auto. }
  destruct e as [ep el ecom efoot]. destruct Ok as (O1 & O2 & O3 & O4). cbn [eblock] in *.
  apply (all_forall else_ok) in O3. apply (all_forall else_ok_if) in O2.
  destruct i as [p c l com foot]. cbn [block else_ok_if] in *. apply (all_forall else_ok) in O1. cbn [drop_bop drop_if bop_string].
  fold (drop_bops l) (drop_bops el). fold (bop_texts (drop_bops l)) (bop_texts l) (bop_texts (drop_bops el)) (bop_texts el).
  rewrite drop_cond_string, (T l Hi O1), (T el He O3).
  f_equal. f_equal. f_equal. f_equal. f_equal. f_equal.
  - clear O1 Hi. induction es as [|[p1 c1 l1 com1 foot1] es IH]; [reflexivity|]. inversion Hes; inversion O2; subst. cbn [map flat_map drop_if elseif_string].
    rewrite IH by assumption. f_equal. cbn [block else_ok_if] in *. fold (drop_bops l1). fold (bop_texts (drop_bops l1)) (bop_texts l1).
    rewrite drop_cond_string, T; auto. now apply (all_forall else_ok).
  - destruct el as [|y el]; [reflexivity|]. destruct ecom; [|now destruct (drop_bops (y :: el))]. destruct efoot; [|now destruct (drop_bops (y :: el))].
    destruct O4 as (z & Hz & Nz); [discriminate|reflexivity|reflexivity|].
    destruct (drop_bops (y :: el)) eqn:E; [|reflexivity]. exfalso.
    assert (In (drop_bop z) (drop_bops (y :: el))); [|rewrite E in *; contradiction].
    unfold drop_bops. apply in_flat_map. exists z. split; [exact Hz|]. destruct z; try congruence; now left.
Qed.
Lemma drop_config_string c : elses_ok c -> config_string (drop_config c) = config_string c.
Proof.
  intros H. unfold elses_ok in H. apply Forall_app in H as [H1 H]. apply Forall_app in H as [H2 H3].
  assert (S : forall k l, Forall (fun s => Forall else_ok (ps_bops s)) l -> sections_string k (map drop_section l) = sections_string k l).
  { intros k l F. unfold sections_string. f_equal. rewrite map_map.
    assert (Ec : match map drop_section l with p0 :: _ => ps_com p0 | [] => [] end = match l with p0 :: _ => ps_com p0 | [] => [] end) by (now destruct l).
    rewrite Ec. apply map_ext_in. intros s Hs. unfold section_string. cbn [drop_section ps_bops ps_foot].
    rewrite drop_texts; [reflexivity|]. rewrite Forall_forall in F. specialize (F s Hs). eapply Forall_impl; [|exact F]. intros x. apply drop_bop_string. }
  unfold config_string. cbn [drop_config cf_input cf_filter cf_output cf_foot]. now rewrite !S.
Qed.
