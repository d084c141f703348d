(** Counting number signs: every number sign of a printed file is in a token or in a
    comment of the tree; and so no gap without a place in the tree has one.  Used for C71. *)
From Coq Require Import List NArith ZArith Bool String Arith Lia.
From Verif Require Import Bytes Utf8 F64 Ast Actions AstPrint AstInd PosFacts LexFacts Tree ParseTree Layout Bare Comments Spelled GapComments.
Import ListNotations.

Definition hc (t : bytes) : nat := count_occ N.eq_dec t HASH.
Definition sum_of {A} (f : A -> nat) (l : list A) : nat := list_sum (map f l).
Definition wcom (l : cblock) : nat := sum_of (fun c => S (hc (c_text c))) l.

Lemma hc_app s t : hc (s ++ t) = hc s + hc t. Proof. apply count_occ_app. Qed.
Lemma sum_app {A} (f : A -> nat) l m : sum_of f (l ++ m) = sum_of f l + sum_of f m.
Proof. unfold sum_of. now rewrite map_app, list_sum_app. Qed.
Lemma sum_cons {A} (f : A -> nat) x l : sum_of f (x :: l) = f x + sum_of f l. Proof. reflexivity. Qed.
Lemma sum_F {A} (f g : A -> nat) l : Forall (fun x => f x = g x) l -> sum_of f l = sum_of g l.
Proof. induction 1 as [|x l E _ IH]; [reflexivity|]. now rewrite !sum_cons, E, IH. Qed.
Lemma sum_map {A B} (f : B -> nat) (h : A -> B) l : sum_of f (map h l) = sum_of (fun x => f (h x)) l.
Proof. unfold sum_of. now rewrite map_map. Qed.
Lemma hc_flat {A} (h : A -> bytes) l : hc (flat_map h l) = sum_of (fun x => hc (h x)) l.
Proof. induction l as [|x l IH]; [reflexivity|]. cbn [flat_map]. now rewrite hc_app, sum_cons, IH. Qed.
Lemma hc_none t : ~ In HASH t -> hc t = 0. Proof. apply count_occ_not_In. Qed.
Lemma hc_zero t : hc t = 0 -> ~ In HASH t. Proof. apply count_occ_not_In. Qed.
Lemma hc_ind n : hc (ind n) = 0.
Proof. apply hc_none. unfold ind. intros I. apply repeat_spec in I. discriminate. Qed.
Lemma hc_comment n c : hc (tcomment n c) = S (hc (c_text c)).
Proof. unfold tcomment. rewrite !hc_app, hc_ind. destruct (c_before c), (c_after c); cbn; lia. Qed.
Lemma hc_coms n l : hc (tcoms n l) = wcom l.
Proof. unfold tcoms, wcom. rewrite hc_flat. apply sum_F, Forall_forall. intros c _. apply hc_comment. Qed.
Ltac zs := repeat match goal with |- context [hc (b ?s)] => change (hc (b s)) with 0 | |- context [hc [NL]] => change (hc [NL]) with 0 | |- context [hc [SP]] => change (hc [SP]) with 0 end; lia.
Lemma wcom_texts l m : map c_text l = map c_text m -> wcom l = wcom m.
Proof.
  intros E. assert (K : forall x, wcom x = sum_of (fun t => S (hc t)) (map c_text x)). { intros x. now rewrite sum_map. }
  now rewrite !K, E.
Qed.
Lemma hc_foot n l : hc (tfoot n l) = wcom l.
Proof.
  unfold tfoot. rewrite hc_coms. apply wcom_texts. induction l as [|c [|d l] IH]; [reflexivity|reflexivity|].
  change (c_text c :: map c_text (map_last clear_after (d :: l)) = map c_text (c :: d :: l)). now rewrite IH.
Qed.
Lemma hc_body n I e foot : hc (tbody n I e foot) = hc I + wcom foot.
Proof.
  unfold tbody. destruct I as [|c I], foot as [|d foot]; try (rewrite !hc_app, hc_foot, hc_ind; cbn; lia).
  destruct e; [|reflexivity]. change (NL :: ind n) with ([NL] ++ ind n). rewrite hc_app, hc_ind. reflexivity.
Qed.
Lemma hc_join sep ts : hc sep = 0 -> hc (Bytes.join sep ts) = sum_of hc ts.
Proof.
  intros E. induction ts as [|t ts IH]; [reflexivity|]. destruct ts as [|u ts]; [unfold sum_of; cbn [map list_sum fold_right Bytes.join]; lia|].
  change (hc (t ++ sep ++ Bytes.join sep (u :: ts)) = hc t + sum_of hc (u :: ts)). rewrite !hc_app, E, IH. reflexivity.
Qed.
Lemma hc_elems ts : hc (telems ts) = sum_of hc ts.
Proof. destruct ts as [|t ts]; [reflexivity|]. unfold telems. rewrite hc_app, hc_join by reflexivity. zs. Qed.
Lemma hc_number t : number_text t -> hc t = 0.
Proof.
  intros (sg & ip & fp & -> & Hs & _ & Di & Hf). apply hc_none. rewrite !in_app_iff. intros [I|[I|I]].
  - destruct Hs as [-> | ->]; [destruct I|]. destruct I as [I|[]]. discriminate.
  - apply (proj1 (Forall_forall _ _) Di) in I. unfold digit, HASH in I. lia.
  - destruct Hf as [-> | (f & -> & Df)]; [destruct I|]. destruct I as [I|I]; [discriminate|]. apply (proj1 (Forall_forall _ _) Df) in I. unfold digit, HASH in I. lia.
Qed.

(** ** The number signs of a tree *)
Definition h_key (k : hkey) : nat := match k with HKStr s => hc (sa_value_string s) | HKNum _ => 0 end.
Fixpoint h_attr (a : attr) : nat :=
  match a with
  | AtNil => 0
  | AtStr s => hc (sa_value_string s)
  | AtNum _ => 0
  | AtArr _ _ l _ f => sum_of (fun x => wcom (attr_com x) + h_attr x) l + wcom f
  | AtHash _ _ l _ f => sum_of h_hentry l + wcom f
  | AtPlug _ _ v _ => h_plugin v
  end
with h_hentry (e : hentry) : nat := match e with HEntry _ k v com => wcom com + h_key k + h_attr v end
with h_plugin (x : plugin) : nat :=
  match x with Plugin _ n l _ f => hc n + sum_of (fun x => wcom (attr_com x) + hc (AstPrint.attr_name x) + h_attr x) l + wcom f end.
Definition h_rvalue (r : rvalue) : nat :=
  match r with
  | RVNil => 0
  | RVStr s => hc (sa_value_string s)
  | RVNum _ => 0
  | RVSel s => hc (selector_string s)
  | RVArr p n l c f => h_attr (AtArr p n l c f)
  | RVRe r => hc (regexp_string r)
  end.
Fixpoint h_cexpr (e : cexpr) : nat :=
  match e with
  | ExNil => 0
  | ExCond _ _ c | ExNeg _ _ c => h_cond c
  | ExNegSel _ _ s => hc (selector_string s)
  | ExIn _ _ l r | ExNotIn _ _ l r | ExCmp _ _ l _ r => h_rvalue l + h_rvalue r
  | ExRv _ _ r => h_rvalue r
  | ExRe _ _ l _ r => h_rvalue l + hc (strorre_string r)
  end
with h_cond (c : condition) : nat := match c with Cond l => sum_of h_cexpr l end.
Fixpoint h_bop (x : bop) : nat :=
  match x with
  | BNil => 0
  | BPlugin p | BPluginPtr p => wcom (match p with Plugin _ _ _ c _ => c end) + h_plugin p
  | BBranch i es e => h_if i + sum_of h_if es + h_else e
  end
with h_if (x : ifblock) : nat := match x with IfB _ c l com f => wcom com + h_cond c + sum_of h_bop l + wcom f end
with h_else (x : elseblock) : nat := match x with ElB _ l com f => wcom com + sum_of h_bop l + wcom f end.
Definition h_section (s : section) : nat := wcom (ps_com s) + sum_of h_bop (ps_bops s) + wcom (ps_foot s).
Definition h_config (c : config) : nat :=
  sum_of h_section (cf_input c) + sum_of h_section (cf_filter c) + sum_of h_section (cf_output c) + wcom (cf_foot c).

(** ** The printed text *)
Ltac hcs := rewrite ?hc_app, ?hc_coms, ?hc_ind, ?hc_body, ?hc_elems, ?hc_flat, ?sum_map.
Lemma All_Forall {A} (P : A -> Prop) l : All P l -> Forall P l.
Proof. induction l as [|x l IH]; [constructor|]. cbn. intros [A1 A2]. constructor; auto. Qed.
Lemma F_and {A} (P Q : A -> Prop) l : Forall P l -> Forall (fun x => P x -> Q x) l -> Forall Q l.
Proof. induction 1; inversion 1; constructor; auto. Qed.

Lemma attrs_text_sum (l : list attr) n :
  Forall (fun x => hc (tval (S n) x) = h_attr x) l ->
  sum_of (fun x => hc (tcoms (S n) (attr_com x) ++ ind (S n) ++ AstPrint.attr_name x ++ AstPrint.arrow ++ tval (S n) x ++ [NL])) l =
  sum_of (fun x => wcom (attr_com x) + hc (AstPrint.attr_name x) + h_attr x) l.
Proof.
  intros H. apply sum_F. eapply Forall_impl; [|exact H]. intros x E. hcs. rewrite E. change (hc AstPrint.arrow) with 0. change (hc [NL]) with 0. lia.
Qed.
Lemma hc_val a : forall nm, pr_attr nm a -> forall n, hc (tval n a) = h_attr a.
Proof.
  induction a as [|s|v|p n l c f IH|p n l c f IH|p n v c IH] using attr_ind'; intros nm P k.
  - destruct P.
  - reflexivity.
  - destruct P as (_ & [P _] & _). cbn [tval h_attr]. now apply hc_number.
  - destruct P as (_ & _ & _ & P). cbn [tval h_attr]. hcs. change (hc (b "[")) with 0. change (hc (b "]")) with 0.
    rewrite (sum_F _ (fun x => wcom (attr_com x) + h_attr x)); [lia|]. apply All_Forall in P. eapply F_and; [exact P|]. eapply Forall_impl; [|exact IH].
    intros x E Q. cbn beta. hcs. rewrite (E _ Q). lia.
  - destruct P as (_ & _ & _ & P). cbn [tval h_attr]. hcs. change (hc (b "{")) with 0. change (hc (b "}")) with 0.
    rewrite (sum_F _ h_hentry); [lia|]. apply All_Forall in P. eapply F_and; [exact P|]. eapply Forall_impl; [|exact IH].
    intros [q x v com] E (Q1 & Q2 & Q3 & _). cbn [hval thentry h_hentry] in *. hcs. rewrite (E _ Q3). change (hc AstPrint.arrow) with 0. change (hc [NL]) with 0.
    assert (K : hc (hkey_string x) = h_key x). { destruct x; [reflexivity|]. destruct Q1 as (_ & [Q1 _] & _). cbn. now apply hc_number. } lia.
  - destruct P as (_ & _ & _ & P & _). destruct v as [q nm' l c' f]. destruct P as (_ & _ & _ & P). cbn [tval h_attr tplugin h_plugin pattrs] in *.
    hcs. change (hc (b " {")) with 0. change (hc (b "}")) with 0. rewrite attrs_text_sum; [lia|].
    apply All_Forall in P. eapply F_and; [exact P|]. eapply Forall_impl; [|exact IH]. intros x E Q. exact (E _ Q _).
Qed.
Lemma hc_plugin x n : pr_plugin x -> hc (tplugin n x) = h_plugin x.
Proof.
  destruct x as [q nm' l c' f]. intros (_ & _ & _ & P). cbn [tplugin h_plugin].
  hcs. change (hc (b " {")) with 0. change (hc (b "}")) with 0. rewrite attrs_text_sum; [lia|].
  apply All_Forall in P. eapply Forall_impl; [|exact P]. intros x Q. exact (hc_val _ _ Q _).
Qed.
Lemma hc_rvalue r n : pr_rvalue r -> hc (trvalue n r) = h_rvalue r.
Proof.
  destruct r; intros P; try reflexivity.
  - destruct P as (_ & [P _] & _). cbn. now apply hc_number.
  - destruct P as (-> & -> & P1 & P2 & _). apply (hc_val _ false). cbn. repeat split; auto. constructor.
Qed.
Lemma hc_boolop o : hc (boolop_string o) = 0. Proof. now destruct o. Qed.
Lemma hc_cmpop o : hc (cmpop_string o) = 0. Proof. now destruct o. Qed.
Lemma hc_reop o : hc (reop_string o) = 0. Proof. now destruct o. Qed.
Lemma hc_cexpr e : forall f, pr_cexpr f e -> forall n, hc (tcexpr n e) = h_cexpr e.
Proof.
  assert (L : forall c, pr_cond c -> Forall (fun e => forall f, pr_cexpr f e -> forall n, hc (tcexpr n e) = h_cexpr e) (exprs c) -> forall n, hc (tcond n c) = h_cond c).
  { intros [l] P H n. cbn [tcond h_cond exprs] in *. rewrite hc_flat. apply sum_F. apply pr_exprs in P. cbn [exprs] in P. eapply F_and; [exact P|]. eapply Forall_impl; [|exact H].
    intros e0 E [g Q]. eauto. }
  induction e as [|q bo c IH|q bo c IH|q bo s|q bo l r|q bo l r|q bo r|q bo l o r|q bo l o r] using cexpr_ind'; intros g P n; cbn [tcexpr h_cexpr pr_cexpr] in *.
  - destruct P.
  - destruct P as (_ & P). hcs. rewrite hc_boolop, (L _ P IH). zs.
  - destruct P as (_ & P). hcs. rewrite hc_boolop, (L _ P IH). zs.
  - hcs. rewrite hc_boolop. zs.
  - destruct P as (_ & P1 & P2). hcs. rewrite hc_boolop, !hc_rvalue by assumption. zs.
  - destruct P as (_ & P1 & P2). hcs. rewrite hc_boolop, !hc_rvalue by assumption. zs.
  - destruct P as (_ & P1). hcs. rewrite hc_boolop, !hc_rvalue by assumption. zs.
  - destruct P as (_ & P1 & _ & P2). hcs. rewrite hc_boolop, hc_cmpop, !hc_rvalue by assumption. zs.
  - destruct P as (_ & P1 & _ & P2). hcs. rewrite hc_boolop, hc_reop, !hc_rvalue by assumption. zs.
Qed.
Lemma hc_cond c n : pr_cond c -> hc (tcond n c) = h_cond c.
Proof.
  intros P. destruct c as [l]. cbn [tcond h_cond]. rewrite hc_flat. apply sum_F. apply pr_exprs in P. eapply Forall_impl; [|exact P]. intros e [g Q]. now apply (hc_cexpr _ g).
Qed.
Lemma hc_block n I f : hc (tblock n I f) = hc I + wcom f.
Proof. unfold tblock. hcs. zs. Qed.
Lemma hc_intro n c : hc (tintro n c) = wcom c.
Proof. unfold tintro. destruct c; [reflexivity|]. hcs. zs. Qed.
Lemma hc_lines n l : Forall (fun x => hc (tbop n x) = h_bop x) l -> hc (Bytes.join [NL] (map (fun y => tbop n y ++ [NL]) l)) = sum_of h_bop l.
Proof.
  intros H. rewrite hc_join, sum_map by reflexivity. apply sum_F. eapply Forall_impl; [|exact H]. intros x E. hcs. rewrite E. zs.
Qed.
Lemma hc_bop x : pr_bop x -> forall n, hc (tbop n x) = h_bop x.
Proof.
  assert (L : forall l n, All pr_bop l -> Forall (fun x => pr_bop x -> forall n, hc (tbop n x) = h_bop x) l -> hc (Bytes.join [NL] (map (fun y => tbop (S n) y ++ [NL]) l)) = sum_of h_bop l).
  { intros l n P H. apply hc_lines. apply All_Forall in P. eapply F_and; [exact P|]. eapply Forall_impl; [|exact H]. intros x0 E Q. auto. }
  induction x as [|q|q|i es e IHi IHes IHe] using bop_ind'; intros P n.
  - destruct P.
  - destruct P as [P _]. cbn [tbop h_bop]. destruct q. hcs. now rewrite hc_plugin.
  - destruct P as [P _]. cbn [tbop h_bop]. destruct q. hcs. now rewrite hc_plugin.
  - destruct i as [ip c l com foot], e as [ep el ecom ef]. destruct P as ((P1 & _ & _ & P2 & _) & P3 & (_ & _ & P4 & _)). cbn [block eblock] in *.
    cbn [tbop h_bop h_if h_else]. hcs. rewrite hc_cond, hc_block, L by auto.
    assert (E1 : sum_of (fun x => hc (telseif n x)) es = sum_of h_if es).
    { apply sum_F. apply All_Forall in P3. eapply F_and; [exact P3|]. eapply Forall_impl; [|exact IHes]. intros [q c' l' com' f'] H (Q1 & _ & _ & Q2 & _). cbn [block telseif h_if] in *.
      hcs. rewrite hc_cond, hc_block, hc_intro, L by auto. zs. }
    assert (E2 : hc (match el, ecom, ef with [], [], [] => [] | _, _, _ => tintro n ecom ++ b "else " ++ tblock n (Bytes.join [NL] (map (fun y => tbop (S n) y ++ [NL]) el)) ef end)
      = wcom ecom + sum_of h_bop el + wcom ef).
    { assert (K : hc (tintro n ecom ++ b "else " ++ tblock n (Bytes.join [NL] (map (fun y => tbop (S n) y ++ [NL]) el)) ef) = wcom ecom + sum_of h_bop el + wcom ef).
      { hcs. rewrite hc_block, hc_intro, L by auto. zs. }
      destruct el, ecom, ef; try exact K. reflexivity. }
    rewrite E1, E2. change (hc (b "if ")) with 0. change (hc (b " ")) with 0. lia.
Qed.
Lemma hc_section kind com s t : pr_section t s -> hc kind = 0 -> hc (tsection kind com s) = wcom com + sum_of h_bop (ps_bops s) + wcom (ps_foot s).
Proof.
  intros (_ & _ & _ & P & _) K. unfold tsection, tbops. hcs. rewrite K, hc_lines; [zs|].
  apply All_Forall in P. eapply Forall_impl; [|exact P]. intros x Q. now apply hc_bop.
Qed.
Lemma hc_config c : printable c -> hc (config_string c) =
  sum_of (fun s => wcom (match cf_input c with p :: _ => ps_com p | [] => [] end) + sum_of h_bop (ps_bops s) + wcom (ps_foot s)) (cf_input c) +
  sum_of (fun s => wcom (match cf_filter c with p :: _ => ps_com p | [] => [] end) + sum_of h_bop (ps_bops s) + wcom (ps_foot s)) (cf_filter c) +
  sum_of (fun s => wcom (match cf_output c with p :: _ => ps_com p | [] => [] end) + sum_of h_bop (ps_bops s) + wcom (ps_foot s)) (cf_output c) + wcom (cf_foot c).
Proof.
  intros P. rewrite config_layout by exact P. destruct P as (P1 & P2 & P3 & _).
  assert (L : forall kind t l, All (pr_section t) l -> hc kind = 0 -> hc (tsections kind l) =
    sum_of (fun s => wcom (match l with p :: _ => ps_com p | [] => [] end) + sum_of h_bop (ps_bops s) + wcom (ps_foot s)) l).
  { intros kind t l Q K. unfold tsections. rewrite hc_join, sum_map by reflexivity. apply sum_F. apply All_Forall in Q. eapply Forall_impl; [|exact Q].
    intros s Qs. eapply hc_section; eauto. }
  unfold tconfig. hcs. rewrite (L _ _ _ P1), (L _ _ _ P2), (L _ _ _ P3) by reflexivity. lia.
Qed.

(** ** The pieces of a tree *)
Definition w_piece (p : piece) : nat := match p with PTok t => hc t | PGap _ c => wcom c | _ => 0 end.
Definition W (l : list piece) : nat := sum_of w_piece l.
Lemma W_app l m : W (l ++ m) = W l + W m. Proof. apply sum_app. Qed.
Lemma W_cons p l : W (p :: l) = w_piece p + W l. Proof. reflexivity. Qed.
Lemma W_nil : W [] = 0. Proof. reflexivity. Qed.
Lemma W_flat {A} (f : A -> list piece) l : W (flat_map f l) = sum_of (fun x => W (f x)) l.
Proof. induction l as [|x l IH]; [reflexivity|]. cbn [flat_map]. now rewrite W_app, sum_cons, IH. Qed.
Lemma W_join {A} k sep (f : Spelled.place -> A -> list piece) (h : A -> nat) l : W sep = 0 ->
  Forall (fun x => forall k, W (f k x) = h x) l -> W (Spelled.join k sep f l) = sum_of h l.
Proof.
  intros Z H. revert k. induction H as [|x l E H IH]; intros k; [reflexivity|].
  rewrite sum_cons. destruct l as [|y l].
  - change (W (f k x ++ []) = h x + sum_of h []). rewrite W_app, E. reflexivity.
  - change (W (f k x ++ sep ++ Spelled.join Next sep f (y :: l)) = h x + sum_of h (y :: l)). now rewrite !W_app, E, Z, IH.
Qed.
Ltac ws := rewrite ?W_app, ?W_cons, ?W_nil; cbn [w_piece tok Spelled.arrow];
  repeat match goal with |- context [hc (b ?s)] => change (hc (b s)) with 0 end; rewrite ?W_app, ?W_cons, ?W_nil; cbn [w_piece].
Lemma W_arrow : W Spelled.arrow = 0. Proof. reflexivity. Qed.
Lemma W_key k : W (pc_key k) = h_key k.
Proof. destruct k; cbn [pc_key h_key]; ws; lia. Qed.
Lemma W_value a : W (pc_value a) = h_attr a.
Proof.
  induction a as [|s|v|p n l c f IH|p n l c f IH|p n v c IH] using attr_ind'; cbn [pc_value h_attr]; try (ws; lia).
  - ws. rewrite (W_join _ _ _ (fun x => wcom (attr_com x) + h_attr x)); [lia|reflexivity|]. eapply Forall_impl; [|exact IH]. intros x E k. ws. now rewrite E.
  - ws. rewrite (W_join _ _ _ h_hentry); [lia|reflexivity|]. eapply Forall_impl; [|exact IH]. intros [q x y com] E k. cbn [hval pc_hentry h_hentry] in *. ws. rewrite W_arrow, W_key, E. lia.
  - destruct v as [q nm l c' f]. cbn [pc_plugin h_plugin pattrs] in *. ws.
    rewrite (W_join _ _ _ (fun x => wcom (attr_com x) + hc (AstPrint.attr_name x) + h_attr x)); [lia|reflexivity|]. eapply Forall_impl; [|exact IH]. intros x E k. ws. rewrite W_arrow, E. change (Spelled.attr_name x) with (AstPrint.attr_name x). lia.
Qed.
Lemma W_plugin x : W (pc_plugin x) = h_plugin x.
Proof.
  destruct x as [q nm l c' f]. cbn [pc_plugin h_plugin pattrs] in *. ws.
  rewrite (W_join _ _ _ (fun x => wcom (attr_com x) + hc (AstPrint.attr_name x) + h_attr x)); [lia|reflexivity|]. apply Forall_forall. intros x _ k. ws. rewrite W_arrow, W_value. change (Spelled.attr_name x) with (AstPrint.attr_name x). lia.
Qed.
Lemma W_sel s : W (pc_sel s) = hc (selector_string s).
Proof. unfold pc_sel, selector_string. ws. rewrite flat_map_concat_map. lia. Qed.
Lemma W_rvalue r : W (pc_rvalue r) = h_rvalue r.
Proof.
  destruct r; cbn [pc_rvalue h_rvalue]; try (ws; lia); [apply W_sel|]. rewrite W_cons, W_value. reflexivity.
Qed.
Lemma W_strorre r : W (pc_strorre r) = hc (strorre_string r).
Proof. destruct r; cbn [pc_strorre strorre_string]; ws; try lia. reflexivity. Qed.
Lemma W_cexpr e : W (pc_body e) = h_cexpr e.
Proof.
  assert (L : forall c, Forall (fun e => W (pc_body e) = h_cexpr e) (exprs c) -> W (pc_cond c) = h_cond c).
  { intros [l] H. cbn [pc_cond h_cond exprs] in *. rewrite W_flat. apply sum_F. eapply Forall_impl; [|exact H]. intros e0 E. rewrite W_app, E. now destruct (bo_op (bo_of e0)). }
  induction e as [|q bo c IH|q bo c IH|q bo s|q bo l r|q bo l r|q bo r|q bo l o r|q bo l o r] using cexpr_ind'; cbn [pc_body h_cexpr]; ws;
    rewrite ?W_rvalue, ?W_sel, ?W_strorre, ?L by assumption; try lia.
  - rewrite hc_cmpop. lia.
  - rewrite hc_reop. lia.
Qed.
Lemma W_cond c : W (pc_cond c) = h_cond c.
Proof. destruct c as [l]. cbn [pc_cond h_cond exprs]. rewrite W_flat. apply sum_F, Forall_forall. intros e0 _. rewrite W_app, W_cexpr. now destruct (bo_op (bo_of e0)). Qed.
Lemma zero_is p : is_zero p = true -> p = zero_pos.
Proof. unfold is_zero. destruct p as [l c o]. rewrite !andb_true_iff, !Nat.eqb_eq. cbn. intros [[-> ->] ->]. reflexivity. Qed.
Lemma W_bop x : wf_bop x -> W (pc_bop x) = h_bop x.
Proof.
  assert (L : forall l, All wf_bop l -> Forall (fun x => wf_bop x -> W (pc_bop x) = h_bop x) l -> W (flat_map pc_bop l) = sum_of h_bop l).
  { intros l P H. rewrite W_flat. apply sum_F. apply All_Forall in P. eapply F_and; [exact P|exact H]. }
  induction x as [|q|q|i es e IHi IHes IHe] using bop_ind'; intros P; cbn [pc_bop h_bop].
  - reflexivity.
  - ws. now rewrite W_plugin.
  - ws. now rewrite W_plugin.
  - destruct P as (P1 & P2 & P3). destruct i as [ip c l com foot]. cbn [block] in *. destruct P1 as (_ & _ & _ & P1).
    assert (E1 : W (flat_map (fun x => [PGap Plain (match x with IfB _ _ _ c _ => c end); tok "else"; PHid] ++ pc_if x) es) = sum_of h_if es).
    { rewrite W_flat. apply sum_F. apply All_Forall in P2. eapply F_and; [exact P2|]. eapply Forall_impl; [|exact IHes]. intros [q c' l' com' f'] H (_ & _ & _ & Q). cbn [block pc_if h_if] in *.
      ws. rewrite W_cond, L by auto. lia. }
    assert (E2 : W (pc_else e) = h_else e).
    { destruct e as [ep el ecom ef]. destruct P3 as (_ & _ & P4 & Z). cbn [eblock pc_else h_else] in *. destruct (is_zero ep) eqn:E.
      - apply zero_is in E. destruct (Z E) as (-> & -> & ->). reflexivity.
      - ws. rewrite L by auto. lia. }
    ws. rewrite E1, E2. cbn [pc_if h_if]. ws. rewrite W_cond, L by auto. lia.
Qed.
Lemma W_section k s t : wf_section t s -> W (pc_section k s) = h_section s.
Proof.
  intros (_ & _ & _ & P). unfold pc_section, h_section. ws. rewrite W_flat.
  rewrite (sum_F (fun x => W (pc_bop x)) h_bop). { assert (K : hc (ptype_string (ps_type s)) = 0) by (destruct (ps_type s); reflexivity). lia. }
  apply All_Forall in P. eapply Forall_impl; [|exact P]. intros x. apply W_bop.
Qed.

(** ** The number signs of a text with these pieces *)
Lemma hc_trim_left cut t : ~ In HASH cut -> hc (trim_left cut t) = hc t.
Proof.
  intros N. induction t as [|c t IH]; [reflexivity|]. cbn [trim_left]. destruct (mem c cut) eqn:E; [|reflexivity].
  rewrite IH. unfold hc. cbn [count_occ]. destruct (N.eq_dec c HASH) as [K|K]; [|reflexivity]. subst c. unfold mem in E. apply existsb_exists in E as (x & I & X). apply N.eqb_eq in X. subst x. tauto.
Qed.
Lemma hc_cons c t : hc (c :: t) = (if (c =? HASH)%N then 1 else 0) + hc t.
Proof. unfold hc. cbn [count_occ]. destruct (N.eq_dec c HASH), (N.eqb_spec c HASH); [reflexivity|congruence|congruence|reflexivity]. Qed.
Lemma hc_rev t : hc (rev t) = hc t.
Proof. induction t as [|c t IH]; [reflexivity|]. cbn [rev]. rewrite hc_app, IH, !hc_cons. change (hc []) with 0. lia. Qed.
Lemma hc_trim cut t : ~ In HASH cut -> hc (trim cut t) = hc t.
Proof. intros N. unfold trim, trim_right. now rewrite hc_rev, hc_trim_left, hc_rev, hc_trim_left. Qed.
Lemma hc_split t : sum_of hc (split NL t) = hc t.
Proof.
  induction t as [|c t IH]; [reflexivity|]. rewrite hc_cons. cbn [split]. destruct (N.eqb_spec c NL) as [K|K].
  - subst c. rewrite sum_cons, IH. reflexivity.
  - destruct (split NL t) as [|l ls] eqn:E; [destruct t as [|d t']; [discriminate|]; cbn [split] in E; destruct (d =? NL)%N; [discriminate|]; destruct (split NL t'); discriminate|].
    rewrite sum_cons in *. rewrite hc_cons. lia.
Qed.
Lemma hc_no_cr t : hc (replace_byte CR [] t) = hc t.
Proof.
  unfold replace_byte. induction t as [|c t IH]; [reflexivity|]. cbn [flat_map]. rewrite hc_app, hc_cons, IH. destruct (N.eqb_spec c CR) as [K|K]; [subst; reflexivity|].
  rewrite hc_cons. change (hc []) with 0. lia.
Qed.
Lemma hc_line l : sum_of (fun c => S (hc c)) (line_comment l) = hc l.
Proof.
  unfold line_comment. induction l as [|c l IH]; [reflexivity|]. rewrite hc_cons. cbn [after_byte]. destruct (N.eqb_spec c HASH) as [K|K]; [|exact IH].
  rewrite sum_cons, hc_trim by (intros [I|[]]; discriminate). unfold sum_of. cbn [map list_sum fold_right]. lia.
Qed.
Lemma wcom_gap k t : wcom (gap_block k t) = hc t.
Proof.
  assert (E : wcom (gap_block k t) = sum_of (fun x => S (hc x)) (gap_comments t)) by (rewrite <- (gap_block_text k), sum_map; reflexivity).
  rewrite E. unfold gap_comments. rewrite <- (hc_no_cr t), <- (hc_split (replace_byte CR [] t)).
  induction (split NL (replace_byte CR [] t)) as [|l ls IH]; [reflexivity|]. cbn [flat_map]. now rewrite sum_app, IH, hc_line, sum_cons.
Qed.
Lemma spelled_hashes data lo l t hs : spelled false data lo l t hs -> W l + sum_of (fun h => hc (snd h)) hs <= hc t.
Proof.
  induction 1; rewrite ?W_cons, ?hc_app, ?sum_cons in *; cbn [w_piece snd] in *; try (cbn; lia).
  - subst c. rewrite wcom_gap. lia.
  - rewrite W_app in *. lia.
  - repeat (rewrite ?W_app, ?W_cons in IHspelled; cbn [w_piece app] in IHspelled). lia.
Qed.

(** ** Forgetting positions and blank lines *)
Section Forget.
  Variable f : spot -> cblock -> cblock.
  Hypothesis Hf : forall k c, wcom (f k c) = wcom c.
  Lemma sum_g {A} (g : spot -> A -> A) (h : A -> nat) l : Forall (fun x => forall k, h (g k x) = h x) l -> sum_of h (g_list g l) = sum_of h l.
  Proof.
    destruct 1 as [|x l E H]; [reflexivity|]. cbn [g_list]. rewrite !sum_cons, E, sum_map. f_equal. apply sum_F. eapply Forall_impl; [|exact H]. auto.
  Qed.
  Lemma com_g k a : wcom (attr_com (g_attr f k a)) = wcom (attr_com a).
  Proof. destruct a; try apply Hf; reflexivity. Qed.
  Lemma name_g k a : AstPrint.attr_name (g_attr f k a) = AstPrint.attr_name a.
  Proof. destruct a; reflexivity. Qed.
  Lemma h_attr_g a : forall k, h_attr (g_attr f k a) = h_attr a.
  Proof.
    induction a as [|s|v|p n l c ft IH|p n l c ft IH|p n v c IH] using attr_ind'; intros k; cbn [g_attr h_attr]; try reflexivity.
    - rewrite Hf, sum_g; [reflexivity|]. eapply Forall_impl; [|exact IH]. intros x E j. now rewrite com_g, E.
    - rewrite Hf, sum_g; [reflexivity|]. eapply Forall_impl; [|exact IH]. intros [q x y com] E j. cbn [hval g_hentry h_hentry] in *. rewrite Hf, E. now destruct x.
    - destruct v as [q nm l c' ft]. cbn [pattrs g_plugin h_plugin] in *. rewrite Hf, sum_g; [reflexivity|]. eapply Forall_impl; [|exact IH]. intros x E j. now rewrite com_g, name_g, E.
  Qed.
  Lemma h_plugin_g x : h_plugin (g_plugin f x) = h_plugin x.
  Proof.
    destruct x as [q nm l c' ft]. cbn [g_plugin h_plugin]. rewrite Hf, sum_g; [reflexivity|]. apply Forall_forall. intros x _ j. now rewrite com_g, name_g, h_attr_g.
  Qed.
  Lemma sel_g s : selector_string (bare_sel s) = selector_string s.
  Proof. unfold selector_string, bare_sel. cbn [sel_els]. induction (sel_els s) as [|x l IH]; [reflexivity|]. cbn [map flat_map]. now rewrite IH. Qed.
  Lemma h_rvalue_g r : h_rvalue (g_rvalue f r) = h_rvalue r.
  Proof.
    destruct r; cbn [g_rvalue h_rvalue]; try reflexivity; [now rewrite sel_g|]. cbn [h_attr]. rewrite Hf, sum_g; [reflexivity|].
    apply Forall_forall. intros x _ j. now rewrite com_g, h_attr_g.
  Qed.
  Lemma strorre_g r : strorre_string (g_strorre f r) = strorre_string r.
  Proof. now destruct r. Qed.
  Lemma h_cexpr_g e : h_cexpr (g_cexpr f e) = h_cexpr e.
  Proof.
    induction e as [|q bo c IH|q bo c IH|q bo s|q bo l r|q bo l r|q bo r|q bo l o r|q bo l o r] using cexpr_ind'; cbn [g_cexpr h_cexpr]; rewrite ?h_rvalue_g, ?sel_g, ?strorre_g; try reflexivity;
      destruct c as [l]; cbn [g_cond h_cond exprs] in *; rewrite sum_map; now apply sum_F.
  Qed.
  Lemma h_cond_g c : h_cond (g_cond f c) = h_cond c.
  Proof. destruct c as [l]. cbn [g_cond h_cond]. rewrite sum_map. apply sum_F, Forall_forall. intros e _. apply h_cexpr_g. Qed.
  Lemma h_bop_g x : h_bop (g_bop f x) = h_bop x.
  Proof.
    assert (L : forall l, Forall (fun x => h_bop (g_bop f x) = h_bop x) l -> sum_of h_bop (map (g_bop f) l) = sum_of h_bop l) by (intros l H; rewrite sum_map; now apply sum_F).
    induction x as [|q|q|i es e IHi IHes IHe] using bop_ind'; cbn [g_bop h_bop].
    - reflexivity.
    - rewrite h_plugin_g. destruct q. cbn [g_plugin]. now rewrite Hf.
    - rewrite h_plugin_g. destruct q. cbn [g_plugin]. now rewrite Hf.
    - destruct i as [ip c l com foot], e as [ep el ecom ef]. cbn [block eblock g_if g_else h_if h_else] in *. rewrite !Hf, h_cond_g, !L, sum_map by assumption.
      rewrite (sum_F _ h_if es); [reflexivity|]. eapply Forall_impl; [|exact IHes]. intros [q c' l' com' f'] H. cbn [block g_if h_if] in *. now rewrite !Hf, h_cond_g, L.
  Qed.
  Lemma h_section_g s : h_section (g_section f s) = h_section s.
  Proof. unfold h_section, g_section. cbn [ps_com ps_bops ps_foot]. rewrite !Hf, sum_map. f_equal. f_equal. apply sum_F, Forall_forall. intros x _. apply h_bop_g. Qed.
  Lemma h_config_g c : h_config (g_config f c) = h_config c.
  Proof.
    unfold h_config, g_config. cbn [cf_input cf_filter cf_output cf_foot]. rewrite Hf, !sum_map.
    rewrite !(sum_F (fun x => h_section (g_section f x)) h_section); [reflexivity| | |]; apply Forall_forall; intros s _; apply h_section_g.
  Qed.
End Forget.
Lemma h_plain c : h_config (plain_config c) = h_config c.
Proof. apply h_config_g. intros _ l. apply wcom_texts. rewrite map_map. apply map_ext. reflexivity. Qed.
