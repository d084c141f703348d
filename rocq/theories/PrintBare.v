(** Printing does not look at positions: String() of a tree and of the tree without
    positions are the same text. *)
From Coq Require Import List NArith Bool String Arith Lia.
From Verif Require Import Bytes F64 Ast Actions AstPrint AstInd Bare.
Import ListNotations.

Lemma flat_map_map {A B C} (h : B -> list C) (k : A -> B) l : flat_map h (map k l) = flat_map (fun x => h (k x)) l.
Proof. induction l as [|x l IH]; [reflexivity|]. cbn [map flat_map]. now rewrite IH. Qed.
Lemma flat_map_F {A B} (h k : A -> list B) l : Forall (fun x => h x = k x) l -> flat_map h l = flat_map k l.
Proof. induction 1; [reflexivity|]. cbn [flat_map]. congruence. Qed.
Lemma attr_com_bare a : attr_com (bare_attr a) = attr_com a. Proof. destruct a; reflexivity. Qed.
Lemma attr_name_bare a : attr_name (bare_attr a) = attr_name a. Proof. destruct a; reflexivity. Qed.
Lemma hkey_bare k : hkey_string (bare_key k) = hkey_string k. Proof. destruct k; reflexivity. Qed.
Lemma nil_bare {A} a (x y : A) : match bare_attr a with AtNil => x | _ => y end = match a with AtNil => x | _ => y end.
Proof. destruct a; reflexivity. Qed.
Lemma plugin_text_bare p n l c f : Forall (fun a => attr_value (bare_attr a) = attr_value a) l ->
  plugin_string (bare_plugin (Plugin p n l c f)) = plugin_string (Plugin p n l c f).
Proof.
  intros H. cbn [bare_plugin plugin_string]. rewrite flat_map_map.
  rewrite (flat_map_F (fun x => match bare_attr x with AtNil => [] | _ => cblock_string (attr_com (bare_attr x)) ++ (attr_name (bare_attr x) ++ arrow ++ attr_value (bare_attr x)) ++ [NL] end)
    (fun x => match x with AtNil => [] | _ => cblock_string (attr_com x) ++ (attr_name x ++ arrow ++ attr_value x) ++ [NL] end)); [reflexivity|].
  eapply Forall_impl; [|exact H]. intros a E. rewrite nil_bare, E, attr_com_bare, attr_name_bare. reflexivity.
Qed.
Lemma attr_value_bare a : attr_value (bare_attr a) = attr_value a.
Proof.
  induction a as [|s|v|p n l c f IH|p n l c f IH|p n v c IH] using attr_ind'; try reflexivity.
  - cbn [bare_attr attr_value]. rewrite flat_map_map.
    rewrite (flat_map_F (fun x => match bare_attr x with AtNil => [] | _ => [cblock_string (attr_com (bare_attr x)) ++ attr_value (bare_attr x)] end)
      (fun x => match x with AtNil => [] | _ => [cblock_string (attr_com x) ++ attr_value x] end)); [reflexivity|].
    eapply Forall_impl; [|exact IH]. intros a E. rewrite nil_bare, E, attr_com_bare. reflexivity.
  - cbn [bare_attr attr_value]. rewrite flat_map_map.
    rewrite (flat_map_F (fun e => hentry_string (bare_hentry e) ++ [NL]) (fun e => hentry_string e ++ [NL])); [reflexivity|].
    eapply Forall_impl; [|exact IH]. intros [hp k v com] E. cbn [bare_hentry hentry_string hval] in *. now rewrite E, hkey_bare.
  - cbn [bare_attr attr_value]. destruct v. now apply plugin_text_bare.
Qed.
Lemma plugin_string_bare x : plugin_string (bare_plugin x) = plugin_string x.
Proof. destruct x. apply plugin_text_bare, Forall_forall. intros a _. apply attr_value_bare. Qed.
Lemma sel_string_bare s : selector_string (bare_sel s) = selector_string s.
Proof. unfold selector_string, bare_sel. cbn [sel_els]. induction (sel_els s) as [|x l IH]; [reflexivity|]. cbn [map flat_map]. now rewrite IH. Qed.
Lemma rvalue_string_bare r : rvalue_string (bare_rvalue r) = rvalue_string r.
Proof.
  destruct r; try reflexivity; cbn [bare_rvalue rvalue_string]; f_equal; [apply sel_string_bare|]. exact (attr_value_bare (AtArr p name l com foot)).
Qed.
Lemma strorre_string_bare r : strorre_string (bare_strorre r) = strorre_string r.
Proof. destruct r; reflexivity. Qed.
Lemma cexpr_string_bare e : cexpr_string (bare_cexpr e) = cexpr_string e.
Proof.
  induction e as [|q bo c IH|q bo c IH|q bo s|q bo l r|q bo l r|q bo r|q bo l o r|q bo l o r] using cexpr_ind'; cbn [bare_cexpr cexpr_string]; rewrite ?rvalue_string_bare, ?sel_string_bare, ?strorre_string_bare; try reflexivity.
  - destruct c as [l]. cbn [bare_cond cond_string exprs] in *. rewrite flat_map_map, (flat_map_F _ _ _ IH). reflexivity.
  - destruct c as [l]. cbn [bare_cond cond_string exprs] in *. rewrite flat_map_map, (flat_map_F _ _ _ IH). reflexivity.
Qed.
Lemma cond_string_bare c : cond_string (bare_cond c) = cond_string c.
Proof. destruct c as [l]. cbn [bare_cond cond_string]. rewrite flat_map_map. apply flat_map_F, Forall_forall. intros e _. apply cexpr_string_bare. Qed.
Lemma bnil_bare {A} x (u v : A) : match bare_bop x with BNil => u | _ => v end = match x with BNil => u | _ => v end.
Proof. destruct x; reflexivity. Qed.
Lemma texts_bare l : Forall (fun x => bop_string (bare_bop x) = bop_string x) l -> bop_texts (map bare_bop l) = bop_texts l.
Proof. intros H. unfold bop_texts. rewrite flat_map_map. apply flat_map_F. eapply Forall_impl; [|exact H]. intros x E. rewrite bnil_bare, E. reflexivity. Qed.
Lemma bop_string_bare x : bop_string (bare_bop x) = bop_string x.
Proof.
  induction x as [|q|q|i es e IHi IHes IHe] using bop_ind'; [reflexivity|apply plugin_string_bare|apply plugin_string_bare|].
  destruct i as [ip c l com foot], e as [ep el ecom ef]. cbn [block eblock] in *.
  change (bop_string (bare_bop (BBranch (IfB ip c l com foot) es (ElB ep el ecom ef)))) with
    (cblock_string com ++ b "if " ++ cond_string (bare_cond c) ++ b " " ++ block_text (bop_texts (map bare_bop l)) foot ++ flat_map elseif_string (map bare_if es)
      ++ match map bare_bop el, ecom, ef with [], [], [] => [] | _, _, _ => else_intro ecom ++ b "else " ++ block_text (bop_texts (map bare_bop el)) ef end).
  rewrite cond_string_bare, (texts_bare _ IHi), (texts_bare _ IHe), flat_map_map.
  rewrite (flat_map_F (fun x => elseif_string (bare_if x)) elseif_string).
  - destruct el; reflexivity.
  - eapply Forall_impl; [|exact IHes]. intros [q c' l' com' ft'] H. cbn [block] in H.
    change (else_intro com' ++ b "else if " ++ cond_string (bare_cond c') ++ b " " ++ block_text (bop_texts (map bare_bop l')) ft' = else_intro com' ++ b "else if " ++ cond_string c' ++ b " " ++ block_text (bop_texts l') ft').
    now rewrite cond_string_bare, (texts_bare _ H).
Qed.
Lemma section_string_bare s : section_string (bare_section s) = section_string s.
Proof. unfold section_string. cbn [bare_section ps_bops]. rewrite texts_bare; [reflexivity|]. apply Forall_forall. intros x _. apply bop_string_bare. Qed.
Lemma sections_string_bare k l : sections_string k (map bare_section l) = sections_string k l.
Proof.
  unfold sections_string. f_equal. rewrite map_map. assert (E : match map bare_section l with p0 :: _ => ps_com p0 | [] => [] end = match l with p0 :: _ => ps_com p0 | [] => [] end) by (destruct l; reflexivity).
  rewrite E. apply map_ext. intros s. now rewrite section_string_bare.
Qed.
Theorem config_string_bare c : config_string (bare_config c) = config_string c.
Proof. unfold config_string. cbn [bare_config cf_input cf_filter cf_output cf_foot]. now rewrite !sections_string_bare. Qed.
