(** Changing the blank-line flags of comments keeps a tree printable; reading back twice
    is reading back once. *)
From Coq Require Import List NArith Bool String Arith Lia.
From Verif Require Import Bytes Utf8 F64 Ast Actions AstPrint AstInd EscapeFacts LexFacts Tree Lines Layout Bare ReadCom ReadVal ReadCond ReadBop ReadConf Comments Blank.
Import ListNotations.

Lemma com_ok_texts c c' : map c_text c = map c_text c' -> com_ok c -> com_ok c'.
Proof.
  revert c'. induction c as [|x c IH]; intros [|x' c'] E H; try discriminate E; [constructor|]. injection E as E1 E2. inversion H; subst. constructor; [|now apply IH].
  unfold comment_ok in *. now rewrite <- E1.
Qed.
Section Pr.
  Variable f : spot -> cblock -> cblock.
  Hypothesis Hf : forall k c, map c_text (f k c) = map c_text c.
  Lemma f_ok k c : com_ok c -> com_ok (f k c). Proof. apply com_ok_texts. now rewrite Hf. Qed.
  Lemma f_nil k : f k [] = []. Proof. apply (map_eq_nil c_text). apply Hf. Qed.
  Lemma g_list_All {A} (P : A -> Prop) (h : spot -> A -> A) l : Forall (fun x => forall k, P (h k x)) l -> All P (g_list h l).
  Proof. intros H. apply All_Forall. destruct H as [|x l Hx H]; constructor; auto. induction H; constructor; auto. Qed.
  Lemma g_key_pr x : pr_key x -> pr_key (g_key f x).
  Proof. destruct x; intros (H1 & H2 & H3); cbn in *; rewrite H3, f_nil; auto. Qed.
  Lemma g_attr_pr a : forall nm k, pr_attr nm a -> pr_attr nm (g_attr f k a).
  Proof.
    induction a as [|s|v|p n l c ft IH|p n l c ft IH|p n v c IH] using attr_ind'; intros nm k H; cbn [g_attr pr_attr] in *.
    - exact H.
    - destruct H as (H1 & H2 & H3). cbn. auto using f_ok.
    - destruct H as (H1 & H2 & H3). cbn. auto using f_ok.
    - destruct H as (H1 & H2 & H3 & H4). do 3 (split; [auto using f_ok|]). apply g_list_All. apply All_F in H4. rewrite Forall_forall in *. auto.
    - destruct H as (H1 & H2 & H3 & H4). do 3 (split; [auto using f_ok|]). apply g_list_All. apply All_F in H4. rewrite Forall_forall in *. intros [hp x v com] I j. specialize (IH _ I). specialize (H4 _ I).
      cbn [g_hentry pr_hentry hval] in *. destruct H4 as (K1 & K2 & K3 & K4). split; [now apply g_key_pr|]. split; [now apply f_ok|]. split; [now apply IH|]. apply (map_eq_nil c_text). pose proof (g_attr_com f Hf First v) as Z. rewrite K4 in Z. exact Z.
    - destruct v as [vp vn vl vc vf]. cbn [g_plugin pr_plugin pattrs] in *. destruct H as (H1 & H2 & H3 & (K1 & K2 & K3 & K4) & ->). rewrite f_nil.
      do 3 (split; [auto using f_ok|]). split; [|reflexivity]. do 3 (split; [auto using f_ok|]). apply g_list_All. apply All_F in K4. rewrite Forall_forall in *. auto.
  Qed.
  Lemma g_plugin_pr x : pr_plugin x -> pr_plugin (g_plugin f x).
  Proof.
    destruct x as [vp vn vl vc vf]. cbn [g_plugin pr_plugin]. intros (K1 & K2 & K3 & K4). do 3 (split; [auto using f_ok|]). apply g_list_All. apply All_F in K4. rewrite Forall_forall in *. auto using g_attr_pr.
  Qed.
  Lemma g_not_selector l ft : All (pr_attr false) l -> com_ok ft -> not_selector l ft -> not_selector (g_list (g_attr f) l) (f First ft).
  Proof.
    intros Hl Hc [[-> ->]|H]; [left; split; [reflexivity|apply f_nil]|right].
    assert (P : forall l ft, All (pr_attr false) l -> com_ok ft -> attr_value (AtArr zero_pos [] l [] ft) = tval 0 (AtArr zero_pos [] l [] ft)).
    { intros l0 ft0 P1 P2. apply (attr_layout _ false). split; [reflexivity|]. split; [constructor|]. split; assumption. }
    rewrite (P _ _ Hl Hc) in H. rewrite P.
    - assert (E : filter mark (tval 0 (AtArr zero_pos [] (g_list (g_attr f) l) [] (f First ft))) = filter mark (tval 0 (AtArr zero_pos [] l [] ft))).
      { symmetry. apply (bl_filter mark LS _ _ IL eq_refl). exact (bl_val f Hf (AtArr zero_pos [] l [] ft) First LS 0). }
      now rewrite E.
    - apply g_list_All. apply All_F in Hl. rewrite Forall_forall in *. auto using g_attr_pr.
    - now apply f_ok.
  Qed.
  Lemma g_sel_pr s : pr_sel s -> pr_sel (bare_sel s).
  Proof.
    intros [[H1 H2] H3]. split; [|now rewrite sel_string_bare]. unfold bare_sel, sel_ok. cbn [sel_els]. split.
    - intros E. apply H1. now apply map_eq_nil in E.
    - apply All_Forall. apply All_Forall in H2. clear -H2. induction H2; constructor; auto.
  Qed.
  Lemma g_rvalue_pr r : pr_rvalue r -> pr_rvalue (g_rvalue f r).
  Proof.
    destruct r as [|s|v|s|p nm l c ft|r]; cbn [g_rvalue pr_rvalue]; auto.
    - intros (H1 & H2 & H3 & H4). unfold cstr_ok. cbn. rewrite H4, f_nil. auto.
    - intros (H1 & H2 & H3). cbn. rewrite H3, f_nil. auto.
    - apply g_sel_pr.
    - intros (-> & -> & H3 & H4 & H5). split; [reflexivity|]. split; [apply f_nil|]. split; [now apply f_ok|]. split; [|now apply g_not_selector].
      apply g_list_All. apply All_F in H4. rewrite Forall_forall in *. auto using g_attr_pr.
  Qed.
  Lemma g_strorre_pr r : pr_strorre r -> pr_strorre (g_strorre f r).
  Proof. destruct r; cbn [g_strorre pr_strorre]; auto. intros (H1 & H2 & H3 & H4). unfold cstr_ok. cbn. rewrite H4, f_nil. auto. Qed.
  Lemma g_exprs_pr l : Forall (fun e => forall b0, pr_cexpr b0 e -> pr_cexpr b0 (g_cexpr f e)) l -> pr_cond (Cond l) -> pr_cond (Cond (map (g_cexpr f) l)).
  Proof.
    intros H. destruct H as [|x l Hx H]; cbn [pr_cond map]; [auto|]. intros [K1 K2]. split; [auto|]. apply All_F in K2. apply All_Forall. rewrite Forall_forall in *. intros y I. apply in_map_iff in I as (z & <- & I). auto.
  Qed.
  Lemma g_cexpr_pr e : forall b0, pr_cexpr b0 e -> pr_cexpr b0 (g_cexpr f e).
  Proof.
    induction e as [|q bo c IH|q bo c IH|q bo s|q bo l r|q bo l r|q bo r|q bo l o r|q bo l o r] using cexpr_ind'; intros b0 H; cbn [g_cexpr pr_cexpr] in *; auto.
    - destruct H as [H1 H2]. split; [exact H1|]. destruct c as [l]. now apply g_exprs_pr.
    - destruct H as [H1 H2]. split; [exact H1|]. destruct c as [l]. now apply g_exprs_pr.
    - destruct H as [H1 H2]. split; [exact H1|now apply g_sel_pr].
    - destruct H as (H1 & H2 & H3). split; [exact H1|]. auto using g_rvalue_pr.
    - destruct H as (H1 & H2 & H3). split; [exact H1|]. auto using g_rvalue_pr.
    - destruct H as (H1 & H2). split; [exact H1|]. auto using g_rvalue_pr.
    - destruct H as (H1 & H2 & H3 & H4). split; [exact H1|]. auto using g_rvalue_pr.
    - destruct H as (H1 & H2 & H3 & H4). split; [exact H1|]. auto using g_rvalue_pr, g_strorre_pr.
  Qed.
  Lemma g_cond_pr c : pr_cond c -> pr_cond (g_cond f c).
  Proof. destruct c as [l]. apply g_exprs_pr, Forall_forall. intros x _. apply g_cexpr_pr. Qed.
  Lemma f_nil_inv k c : f k c = [] -> c = [].
  Proof. intros E. pose proof (Hf k c) as T. rewrite E in T. now destruct c. Qed.
  Lemma g_beside x y : beside x y -> beside (g_bop f x) (g_bop f y).
  Proof.
    assert (B : forall e, else_empty (g_else f e) -> else_empty e).
    { intros [p l com ft] (H1 & H2 & H3). apply f_nil_inv in H2, H3. split; [|auto]. now destruct l. }
    destruct x as [|q|q|i es e], y as [|q'|q'|i' es' e']; cbn [g_bop beside]; auto; intros H K; apply B, H in K; now destruct q'.
  Qed.
  Lemma g_apart l : apart l -> apart (map (g_bop f) l).
  Proof.
    induction l as [|x l IH]; cbn [map apart]; [auto|]. intros [H1 H2]. split; [|auto]. destruct l; cbn [map]; [auto|]. now apply g_beside.
  Qed.
  Lemma g_bop_pr x : pr_bop x -> pr_bop (g_bop f x).
  Proof.
    assert (M : forall l, Forall (fun x => pr_bop x -> pr_bop (g_bop f x)) l -> All pr_bop l -> All pr_bop (map (g_bop f) l)).
    { intros l H K. apply All_F in K. apply All_Forall. rewrite Forall_forall in *. intros y I. apply in_map_iff in I as (z & <- & I). auto. }
    induction x as [|q|q|i es e IHi IHes IHe] using bop_ind'; intros H; cbn [g_bop pr_bop] in *; auto.
    - destruct H as [H1 H2]. split; [now apply g_plugin_pr|now destruct q].
    - destruct H as [H1 H2]. split; [now apply g_plugin_pr|now destruct q].
    - destruct H as (H1 & H2 & H3).
      assert (I : forall i, Forall (fun x => pr_bop x -> pr_bop (g_bop f x)) (block i) -> pr_if i -> pr_if (g_if f i)).
      { intros [p c l com ft] K (G1 & G2 & G3 & G4 & G5). cbn [g_if pr_if block] in *. split; [now apply g_cond_pr|]. do 2 (split; [now apply f_ok|]). split; [now apply M|now apply g_apart]. }
      split; [now apply I|]. split.
      + apply All_F in H2. apply All_Forall. rewrite Forall_forall in *. intros y J. apply in_map_iff in J as (z & <- & J). auto.
      + destruct e as [p l com ft]. destruct H3 as (G1 & G2 & G3 & G4). do 2 (split; [now apply f_ok|]). split; [now apply M|now apply g_apart].
  Qed.
End Pr.

(** ** What is read back *)
Lemma norm_from_texts l : forall pre, map c_text (norm_from pre l) = map c_text l.
Proof. induction l as [|c l IH]; intros pre; [reflexivity|]. cbn [norm_from map]. now rewrite IH. Qed.
Lemma norm_texts l : map c_text (norm l) = map c_text l.
Proof. destruct l; [reflexivity|]. cbn [norm map]. now rewrite norm_from_texts. Qed.
Lemma first_texts l : map c_text (map_first set_before l) = map c_text l.
Proof. destruct l; reflexivity. Qed.
Lemma last_texts l : map c_text (map_last set_after l) = map c_text l.
Proof. induction l as [|x [|y l] IH]; [reflexivity|reflexivity|]. change (map_last set_after (x :: y :: l)) with (x :: map_last set_after (y :: l)). cbn [map]. f_equal. exact IH. Qed.
Lemma set_last_texts x l : map c_text (set_last x l) = map c_text l.
Proof. destruct x; [apply last_texts|reflexivity]. Qed.
Lemma first_com_texts l : map c_text (first_com l) = map c_text l.
Proof. unfold first_com. now rewrite set_last_texts, norm_texts. Qed.
Lemma rc_texts k c : map c_text (rc_at k c) = map c_text c.
Proof. destruct k; cbn [rc_at rc]; [apply norm_texts|rewrite first_texts; apply norm_texts|reflexivity]. Qed.
Lemma norm_from_no l : forall pre, Forall (fun c => c_after c = false) (norm_from pre l).
Proof. induction l; intros pre; constructor; auto. Qed.
Lemma norm_from_same l : Forall (fun c => c_after c = false) l -> norm_from false l = l.
Proof. induction 1 as [|[t x y] l H _ IH]; [reflexivity|]. cbn in H. subst. cbn [norm_from]. cbn. now rewrite IH. Qed.
Lemma norm_twice l : norm (norm l) = norm l.
Proof. destruct l as [|c l]; [reflexivity|]. cbn [norm]. cbn. now rewrite norm_from_same by apply norm_from_no. Qed.
Lemma norm_first l : norm (map_first set_before l) = norm l.
Proof. destruct l; reflexivity. Qed.
Lemma rc_twice k c : rc_at k (rc_at k c) = rc_at k c.
Proof. destruct k; cbn [rc_at rc]; [apply norm_twice|now rewrite norm_first, norm_twice|reflexivity]. Qed.
Lemma norm_from_last l : forall pre, norm_from pre (map_last set_after l) = norm_from pre l.
Proof. induction l as [|x [|y l] IH]; intros pre; [reflexivity|reflexivity|]. change (map_last set_after (x :: y :: l)) with (x :: map_last set_after (y :: l)). cbn [norm_from]. f_equal. apply IH. Qed.
Lemma norm_last l : norm (map_last set_after l) = norm l.
Proof. destruct l as [|x [|y l]]; [reflexivity|reflexivity|]. change (map_last set_after (x :: y :: l)) with (x :: map_last set_after (y :: l)). cbn [norm]. f_equal. apply norm_from_last. Qed.
Lemma norm_first_com l : norm (first_com l) = norm l.
Proof. unfold first_com, set_last. destruct (last_after false l); rewrite ?norm_last; apply norm_twice. Qed.
Lemma last_after_norm_from l : forall d pre, last_after d (norm_from pre l) = match l with [] => d | _ => false end.
Proof. induction l as [|c l IH]; intros d pre; [reflexivity|]. cbn [norm_from last_after c_after]. rewrite IH. now destruct l. Qed.
Lemma last_after_set l : forall d, l <> [] -> last_after d (map_last set_after l) = true.
Proof. induction l as [|x [|y l] IH]; intros d H; [congruence|reflexivity|]. change (map_last set_after (x :: y :: l)) with (x :: map_last set_after (y :: l)). cbn [last_after]. now apply IH. Qed.
Lemma last_after_first l : last_after false (first_com l) = last_after false l.
Proof.
  destruct l as [|c l]; [reflexivity|]. unfold first_com. destruct (last_after false (c :: l)) eqn:E; cbn [set_last].
  - apply last_after_set. discriminate.
  - cbn [norm last_after c_after]. rewrite last_after_norm_from. now destruct l.
Qed.
Lemma first_com_twice l : first_com (first_com l) = first_com l.
Proof. unfold first_com at 1. rewrite last_after_first, norm_first_com. reflexivity. Qed.
Lemma shared_re first l : shared_com (re_secs first l) = match l with [] => [] | _ => if first then first_com (shared_com l) else norm (shared_com l) end.
Proof. destruct l; reflexivity. Qed.
Lemma re_section_twice s com com' : re_section (re_section s com) com' = re_section s com'.
Proof.
  rewrite !re_is_section. cbn [ps_type ps_bops ps_foot]. rewrite map_map, norm_twice. f_equal. apply map_ext. intros x. apply (gc_bop rc_at rc_at rc_at rc_twice).
Qed.
Lemma re_secs_twice first l : re_secs first (re_secs first l) = re_secs first l.
Proof.
  destruct l as [|s l]; [reflexivity|]. cbn [re_secs shared_com]. cbn [ps_com re_section].
  assert (N : norm (if first then first_com (ps_com s) else norm (ps_com s)) = norm (ps_com s)) by (destruct first; [apply norm_first_com|apply norm_twice]).
  assert (M : (if first then first_com (if first then first_com (ps_com s) else norm (ps_com s)) else norm (if first then first_com (ps_com s) else norm (ps_com s))) = (if first then first_com (ps_com s) else norm (ps_com s))).
  { destruct first; [apply first_com_twice|apply norm_twice]. }
  f_equal.
  - rewrite M. apply re_section_twice.
  - rewrite map_map. apply map_ext. intros y. rewrite N. apply re_section_twice.
Qed.
Lemma nil_re first l : nil_secs (re_secs first l) = nil_secs l.
Proof. destruct l; reflexivity. Qed.
Theorem reread_twice c : reread (reread c) = reread c.
Proof.
  unfold reread at 1. cbn [reread cf_input cf_filter cf_output cf_foot]. rewrite !nil_re, !re_secs_twice, norm_first, norm_twice. reflexivity.
Qed.
Lemma re_secs_pr first t l : All (pr_section t) l -> All (pr_section t) (re_secs first l).
Proof.
  intros H. apply All_F in H. apply All_Forall. destruct H as [|s l Hs H]; [constructor|].
  assert (C : com_ok (ps_com s)) by apply Hs.
  assert (P : forall x com, pr_section t x -> com_ok com -> pr_section t (re_section x com)).
  { intros x com (H1 & H2 & H3 & H4 & H5) K. rewrite re_is_section. split; [exact H1|]. split; [exact K|]. split; [|split].
    - eapply com_ok_texts; [|exact H3]. symmetry. apply norm_texts.
    - cbn [ps_bops]. apply All_F in H4. apply All_Forall. rewrite Forall_forall in *. intros y I. apply in_map_iff in I as (z & <- & I). apply (g_bop_pr rc_at rc_texts). auto.
    - cbn [ps_bops]. now apply (g_apart rc_at rc_texts). }
  cbn [re_secs shared_com]. constructor.
  - apply P; [exact Hs|]. destruct first; (eapply com_ok_texts; [|exact C]); symmetry; [apply first_com_texts|apply norm_texts].
  - apply Forall_forall. intros y I. apply in_map_iff in I as (z & <- & I). rewrite Forall_forall in H. apply P; [auto|]. eapply com_ok_texts; [|exact C]. symmetry. apply norm_texts.
Qed.
Theorem reread_printable c : printable c -> printable (reread c).
Proof.
  intros (H1 & H2 & H3 & H4 & H5). unfold printable, reread. cbn [cf_input cf_filter cf_output cf_foot].
  do 3 (split; [now apply re_secs_pr|]). split.
  - eapply com_ok_texts; [|exact H4]. now rewrite first_texts, norm_texts.
  - intros E1 E2 E3. assert (Z : forall first l, re_secs first l = [] -> l = []) by (intros first [|x l]; [auto|discriminate]).
    apply Z in E1, E2, E3. now rewrite (H5 E1 E2 E3).
Qed.
Lemma re_secs_like first l : Forall2 (like_section rc_at) l (re_secs first l).
Proof.
  assert (P : forall s com, like_section rc_at s (re_section s com)).
  { intros s com. rewrite re_is_section. split; [reflexivity|]. symmetry. apply norm_texts. }
  destruct l as [|s l]; constructor; [apply P|]. induction l; constructor; auto.
Qed.
Lemma re_secs_texts first l : map c_text (shared_com l) = map c_text (shared_com (re_secs first l)).
Proof. destruct l as [|s l]; [reflexivity|]. cbn [re_secs shared_com ps_com re_section]. destruct first; symmetry; [apply first_com_texts|apply norm_texts]. Qed.
Theorem reread_blank c : Bl LS (tconfig c) (tconfig (reread c)) LS.
Proof.
  apply (bl_config rc_at rc_texts); cbn [reread cf_input cf_filter cf_output cf_foot]; try apply re_secs_like; try apply re_secs_texts. now rewrite first_texts, norm_texts.
Qed.
