(** Which trees that the parser produces are printable: [parts] lists the places of a tree
    where the printer or the configuration language can fail, [part_ok] says when it does not. *)
From Coq Require Import List NArith Bool String Arith Lia.
From Verif Require Import Bytes F64 Ast AstPrint AstInd EscapeFacts LexFacts Tree Lines Layout.
Import ListNotations.

Inductive part :=
| PNum (v : f64)                              (* a number *)
| PSel (s : selector)                         (* a field selector *)
| PRe (r : regexp)                            (* a regular expression *)
| PArr (l : list attr) (foot : cblock)        (* an array in a condition *)
| PBlock (l : list bop).                      (* the content of a section, an if, else if or else block *)

(** numbers *)
Definition key_nums (k : hkey) : list part := match k with HKStr _ => [] | HKNum n => [PNum (na_val n)] end.
Fixpoint attr_parts (a : attr) : list part :=
  match a with
  | AtNil | AtStr _ => []
  | AtNum n => [PNum (na_val n)]
  | AtArr _ _ l _ _ => flat_map attr_parts l
  | AtHash _ _ l _ _ => flat_map hentry_parts l
  | AtPlug _ _ v _ => plugin_parts v
  end
with hentry_parts (e : hentry) : list part := match e with HEntry _ k v _ => key_nums k ++ attr_parts v end
with plugin_parts (x : plugin) : list part := match x with Plugin _ _ l _ _ => flat_map attr_parts l end.
Definition rvalue_parts (r : rvalue) : list part :=
  match r with
  | RVNil | RVStr _ => []
  | RVNum n => [PNum (na_val n)]
  | RVSel s => [PSel s]
  | RVArr _ _ l _ f => PArr l f :: flat_map attr_parts l
  | RVRe r => [PRe r]
  end.
Definition strorre_parts (r : strorre) : list part := match r with SRRe r => [PRe r] | _ => [] end.
Fixpoint cexpr_parts (e : cexpr) : list part :=
  match e with
  | ExNil => []
  | ExCond _ _ c | ExNeg _ _ c => cond_parts c
  | ExNegSel _ _ s => [PSel s]
  | ExIn _ _ l r | ExNotIn _ _ l r | ExCmp _ _ l _ r => rvalue_parts l ++ rvalue_parts r
  | ExRv _ _ r => rvalue_parts r
  | ExRe _ _ l _ r => rvalue_parts l ++ strorre_parts r
  end
with cond_parts (c : condition) : list part := match c with Cond l => flat_map cexpr_parts l end.
Fixpoint bop_parts (x : bop) : list part :=
  match x with
  | BNil => []
  | BPlugin p | BPluginPtr p => plugin_parts p
  | BBranch i es e => if_parts i ++ flat_map if_parts es ++ else_parts e
  end
with if_parts (x : ifblock) : list part := match x with IfB _ c l _ _ => cond_parts c ++ PBlock l :: flat_map bop_parts l end
with else_parts (x : elseblock) : list part := match x with ElB _ l _ _ => PBlock l :: flat_map bop_parts l end.
Definition section_parts (s : section) : list part := PBlock (ps_bops s) :: flat_map bop_parts (ps_bops s).
Definition parts (c : config) : list part := flat_map section_parts (sections c).

Definition if_named (x : bop) : Prop := match x with BPlugin p | BPluginPtr p => if_like (pname p) | _ => False end.
Definition part_ok (p : part) : Prop :=
  match p with
  | PNum v => pr_num v
  | PSel s => balanced (selector_string s)
  | PRe r => balanced (re_text r)
  | PArr l f => not_selector l f
  | PBlock l => Forall (fun x => ~ if_named x) l /\ apart l
  end.
Definition expressible (c : config) : Prop := Forall part_ok (parts c).

Lemma Forall_flat {A B} (P : B -> Prop) (f : A -> list B) l : Forall P (flat_map f l) <-> Forall (fun x => Forall P (f x)) l.
Proof. induction l as [|x l IH]; cbn [flat_map]; [split; constructor|]. rewrite Forall_app, IH, Forall_cons_iff. reflexivity. Qed.
Lemma one {A} (P : A -> Prop) x : Forall P [x] <-> P x. Proof. rewrite Forall_cons_iff. intuition. Qed.
(** elements satisfy both or the list does *)
Lemma all_parts {A} (W P : A -> Prop) (f : A -> list part) l :
  Forall (fun x => W x -> (P x <-> Forall part_ok (f x))) l -> All W l -> (All P l <-> Forall part_ok (flat_map f l)).
Proof.
  intros H K. rewrite Forall_flat, All_Forall. apply All_F in K. rewrite !Forall_forall in *. split; intros G x I; apply (H x I (K x I)); auto.
Qed.
Lemma pr_num_ok v : pr_num v -> num_ok v. Proof. intros [H K]. now exists (number_string v). Qed.
Lemma key_parts k : key_ok k -> (pr_key k <-> Forall part_ok (key_nums k)).
Proof. destruct k; cbn [key_ok pr_key key_nums]; rewrite ?one; cbn [part_ok]; intuition. Qed.
Lemma attr_accepted a : forall nm, wf_attr nm a -> (pr_attr nm a <-> Forall part_ok (attr_parts a)).
Proof.
  induction a as [|s|v|p n l c f IH|p n l c f IH|p n v c IH] using attr_ind'; intros nm W; cbn [wf_attr pr_attr attr_parts] in *.
  - contradiction.
  - intuition.
  - rewrite one. cbn [part_ok]. tauto.
  - rewrite <- (all_parts (wf_attr false) (pr_attr false)); [tauto| |tauto]. eapply Forall_impl; [|exact IH]. auto.
  - rewrite <- (all_parts wf_hentry pr_hentry); [tauto| |tauto]. eapply Forall_impl; [|exact IH]. intros [hp k x com] G (W1 & W2 & W3 & W4). cbn [hval] in G. cbn [pr_hentry hentry_parts].
    rewrite Forall_app, <- (key_parts k W1), <- (G _ W3). tauto.
  - destruct v as [vp vn vl vc vf]. cbn [wf_plugin pr_plugin plugin_parts pattrs] in *. rewrite <- (all_parts (wf_attr true) (pr_attr true)); [tauto| |tauto]. eapply Forall_impl; [|exact IH]. auto.
Qed.
Lemma attrs_accepted nm l : All (wf_attr nm) l -> (All (pr_attr nm) l <-> Forall part_ok (flat_map attr_parts l)).
Proof. apply all_parts, Forall_forall. intros x _. apply attr_accepted. Qed.
Lemma plugin_accepted x : wf_plugin x -> (pr_plugin x <-> Forall part_ok (plugin_parts x)).
Proof. destruct x as [p n l c f]. cbn [wf_plugin pr_plugin plugin_parts]. intros (H1 & H2 & H3 & H4). rewrite <- (attrs_accepted true l H4). tauto. Qed.
Lemma rvalue_accepted r : wf_rvalue r -> (pr_rvalue r <-> Forall part_ok (rvalue_parts r)).
Proof.
  destruct r as [|s|v|s|p n l c f|r]; cbn [wf_rvalue pr_rvalue rvalue_parts]; rewrite ?one; cbn [part_ok]; intros W.
  - contradiction.
  - intuition.
  - tauto.
  - unfold pr_sel. tauto.
  - destruct W as (H1 & H2 & H3 & H4). rewrite Forall_cons_iff, <- (attrs_accepted false l H4). cbn [part_ok]. tauto.
  - unfold pr_re. tauto.
Qed.
Lemma strorre_accepted r : wf_strorre r -> (pr_strorre r <-> Forall part_ok (strorre_parts r)).
Proof. destruct r; cbn [wf_strorre pr_strorre strorre_parts]; rewrite ?one; cbn [part_ok]; unfold pr_re; intuition. Qed.
Lemma exprs_accepted l : Forall (fun e => forall first, wf_cexpr first e -> (pr_cexpr first e <-> Forall part_ok (cexpr_parts e))) l ->
  wf_cond (Cond l) -> (pr_cond (Cond l) <-> Forall part_ok (cond_parts (Cond l))).
Proof.
  intros H W. destruct H as [|e l He H]; [contradiction|]. destruct W as [W1 W2]. cbn [pr_cond cond_parts flat_map]. rewrite Forall_app, <- (He _ W1).
  rewrite <- (all_parts (wf_cexpr false) (pr_cexpr false)); [tauto| |exact W2]. eapply Forall_impl; [|exact H]. auto.
Qed.
Lemma cexpr_accepted e : forall first, wf_cexpr first e -> (pr_cexpr first e <-> Forall part_ok (cexpr_parts e)).
Proof.
  induction e as [|p bo c IH|p bo c IH|p bo s|p bo l r|p bo l r|p bo r|p bo l o r|p bo l o r] using cexpr_ind'; intros first W; cbn [wf_cexpr pr_cexpr cexpr_parts] in *.
  - contradiction.
  - destruct c as [l]. destruct W as [W1 W2]. rewrite <- (exprs_accepted l IH W2). tauto.
  - destruct c as [l]. destruct W as [W1 W2]. rewrite <- (exprs_accepted l IH W2). tauto.
  - rewrite one. cbn [part_ok]. unfold pr_sel. tauto.
  - destruct W as (W1 & W2 & W3). rewrite Forall_app, <- (rvalue_accepted l W2), <- (rvalue_accepted r W3). tauto.
  - destruct W as (W1 & W2 & W3). rewrite Forall_app, <- (rvalue_accepted l W2), <- (rvalue_accepted r W3). tauto.
  - destruct W as (W1 & W2). rewrite <- (rvalue_accepted r W2). tauto.
  - destruct W as (W1 & W2 & W3 & W4). rewrite Forall_app, <- (rvalue_accepted l W2), <- (rvalue_accepted r W4). tauto.
  - destruct W as (W1 & W2 & W3 & W4). rewrite Forall_app, <- (rvalue_accepted l W2), <- (strorre_accepted r W4). tauto.
Qed.
Lemma cond_accepted c : wf_cond c -> (pr_cond c <-> Forall part_ok (cond_parts c)).
Proof. destruct c as [l]. apply exprs_accepted, Forall_forall. intros e _. apply cexpr_accepted. Qed.

(** elements of blocks: everything but the names *)
Lemma block_accepted (l : list bop) :
  Forall (fun x => wf_bop x -> (pr_bop x <-> ~ if_named x /\ Forall part_ok (bop_parts x))) l -> All wf_bop l ->
  (All pr_bop l /\ apart l <-> Forall part_ok (PBlock l :: flat_map bop_parts l)).
Proof.
  intros H W. rewrite Forall_cons_iff, Forall_flat. cbn [part_ok]. rewrite All_Forall. apply All_F in W. rewrite !Forall_forall in *. split.
  - intros [G A]. split; [split; [|exact A]|]; intros x I; apply (H x I (W x I)); auto.
  - intros [[G A] K]. split; [|exact A]. intros x I. apply (H x I (W x I)). auto.
Qed.
Lemma bop_accepted x : wf_bop x -> (pr_bop x <-> ~ if_named x /\ Forall part_ok (bop_parts x)).
Proof.
  induction x as [|p|p|i es e IHi IHes IHe] using bop_ind'; intros W; cbn [wf_bop pr_bop bop_parts if_named] in *.
  - contradiction.
  - unfold pr_item. rewrite (plugin_accepted p W). tauto.
  - contradiction.
  - change (pr_if i /\ All pr_if es /\ pr_else e <-> ~ False /\ Forall part_ok (if_parts i ++ flat_map if_parts es ++ else_parts e)).
    change (wf_if i /\ All wf_if es /\ wf_else e) in W. destruct W as (W1 & W2 & W3).
    assert (I : forall i, Forall (fun x => wf_bop x -> (pr_bop x <-> ~ if_named x /\ Forall part_ok (bop_parts x))) (block i) -> wf_if i -> (pr_if i <-> Forall part_ok (if_parts i))).
    { intros [p c l com foot] K (G1 & G2 & G3 & G4). cbn [block] in K. cbn [pr_if if_parts]. rewrite Forall_app, <- (cond_accepted c G1), <- (block_accepted l K G4). tauto. }
    rewrite !Forall_app, <- (I i IHi W1). rewrite <- (all_parts wf_if pr_if); [| |exact W2].
    + destruct e as [p l com foot]. cbn [eblock] in IHe. destruct W3 as (G1 & G2 & G3 & G4). cbn [pr_else else_parts]. rewrite <- (block_accepted l IHe G3). tauto.
    + eapply Forall_impl; [|exact IHes]. intros x K. apply I, K.
Qed.
Lemma section_accepted t s : wf_section t s -> (pr_section t s <-> Forall part_ok (section_parts s)).
Proof.
  intros (H1 & H2 & H3 & H4). unfold pr_section, section_parts. rewrite <- block_accepted; [tauto| |exact H4]. apply Forall_forall. intros x _. apply bop_accepted.
Qed.
(** A tree with the shape of a parsed one is printable iff its parts are. *)
Theorem accepted_printable c : wf_config c -> (printable c <-> expressible c).
Proof.
  intros (H1 & H2 & H3 & H4 & H5). unfold printable, expressible, parts, sections. rewrite !flat_map_app, !Forall_app.
  assert (S : forall t l, All (wf_section t) l -> (All (pr_section t) l <-> Forall part_ok (flat_map section_parts l))).
  { intros t l. apply all_parts, Forall_forall. intros s _. apply section_accepted. }
  rewrite (S _ _ H1), (S _ _ H2), (S _ _ H3). tauto.
Qed.
