(** Trees with the same skeleton and related plugins; what auto-fix of lint does to the
    properties "printable" and "all texts are UTF-8". *)
From Coq Require Import List NArith Bool String Arith Lia.
From Verif Require Import Bytes Utf8 F64 Ast AstPrint AstUtil AstInd Utf8Facts EscapeFacts SimpleFacts ItoaFacts LexFacts Tree Lines Layout Accepted Utf8Tree LintFacts.
Import ListNotations.

Section Rel.
  Variable R : plugin -> plugin -> Prop.
  (** the same tree but for the plugins, which correspond by [R] *)
  Inductive rel : bop -> bop -> Prop :=
  | rel_plugin x y p p' : (x = BPlugin p \/ x = BPluginPtr p) -> (y = BPlugin p' \/ y = BPluginPtr p') -> R p p' -> rel x y
  | rel_branch i i' es es' ep el el' ecom efoot :
      rel_if i i' -> Forall2 rel_if es es' -> Forall2 rel el el' ->
      rel (BBranch i es (ElB ep el ecom efoot)) (BBranch i' es' (ElB ep el' ecom efoot))
  with rel_if : ifblock -> ifblock -> Prop :=
  | rel_ifb p c l l' com foot : Forall2 rel l l' -> rel_if (IfB p c l com foot) (IfB p c l' com foot).

  Definition count (x : bop) : nat := List.length (plugins x).
  Lemma flat_length {A B} (f : A -> list B) l : List.length (flat_map f l) = list_sum (map (fun x => List.length (f x)) l).
  Proof. induction l; cbn; [reflexivity|]. now rewrite app_length, IHl. Qed.
  Definition if_plugins (e : ifblock) : list plugin := flat_map plugins (block e).
  Lemma branch_plugins i es e : plugins (BBranch i es e) = if_plugins i ++ flat_map if_plugins es ++ flat_map plugins (eblock e).
  Proof. destruct i, e. cbn [plugins]. unfold if_plugins at 1. cbn [block eblock]. do 2 f_equal. apply flat_map_ext. now intros []. Qed.

  (** a tree of the same skeleton has at most as many plugins as one without nil entries *)
  Definition few (x : bop) : Prop := forall y, skeleton y = skeleton x -> wf_bop x -> count y <= count x.
  Lemma few_list l : forall l', Forall few l -> All wf_bop l -> map skeleton l' = map skeleton l ->
    List.length (flat_map plugins l') <= List.length (flat_map plugins l).
  Proof.
    induction l as [|x l IH]; intros [|y l'] H W E; try discriminate; [reflexivity|]. inversion E. inversion H; subst. destruct W as [W1 W2].
    cbn [flat_map]. rewrite !app_length. apply Nat.add_le_mono; [now apply H4|apply IH; auto].
  Qed.
  Definition kif (e : ifblock) : ifblock := match e with IfB p c l com foot => IfB p c (map skeleton l) com foot end.
  Lemma skel_branch i es e : skeleton (BBranch i es e) =
    BBranch (kif i) (map kif es) (match e with ElB p l com foot => ElB p (map skeleton l) com foot end).
  Proof. now destruct i, e. Qed.
  Lemma skel_inv y i es e : skeleton y = skeleton (BBranch i es e) -> exists i' es' e', y = BBranch i' es' e' /\
    kif i' = kif i /\ map kif es' = map kif es /\
    match e' with ElB p l com foot => ElB p (map skeleton l) com foot end = match e with ElB p l com foot => ElB p (map skeleton l) com foot end.
  Proof.
    rewrite skel_branch. destruct y as [|p|p|i' es' e']; try discriminate. rewrite skel_branch. intros E. inversion E. eauto 8.
  Qed.
  Lemma few_if i i' : Forall few (block i) -> wf_if i -> kif i' = kif i -> List.length (if_plugins i') <= List.length (if_plugins i).
  Proof. destruct i as [p c l com foot], i' as [p' c' l' com' foot']. intros H (_ & _ & _ & W) E. inversion E. now apply few_list. Qed.
  Lemma few_ifs es : forall es', Forall (fun i => Forall few (block i)) es -> All wf_if es -> map kif es' = map kif es ->
    List.length (flat_map if_plugins es') <= List.length (flat_map if_plugins es).
  Proof.
    induction es as [|x l IH]; intros [|y l'] H W E; try discriminate; [reflexivity|]. inversion E. inversion H; subst. destruct W as [W1 W2].
    cbn [flat_map]. rewrite !app_length. apply Nat.add_le_mono; [now apply few_if|apply IH; auto].
  Qed.
  Lemma few_all x : few x.
  Proof.
    induction x as [|p|p|i es e IHi IHes IHe] using bop_ind'; intros y E W; try contradiction.
    - destruct y as [|q|q|i' es' e']; cbn; try lia. rewrite skel_branch in E. discriminate.
    - apply skel_inv in E as (i' & es' & e' & -> & E1 & E2 & E3). destruct W as (W1 & W2 & W3). unfold count. rewrite !branch_plugins, !app_length.
      pose proof (few_if i i' IHi W1 E1). pose proof (few_ifs es es' IHes W2 E2).
      destruct e as [p l com foot], e' as [p' l' com' foot']. cbn [eblock] in *. destruct W3 as (_ & _ & W3 & _). inversion E3. pose proof (few_list l l' IHe W3 H3). lia.
  Qed.
  Lemma fewl l : Forall few l. Proof. apply Forall_forall. intros x _. apply few_all. Qed.

  Lemma F2_length {A B} (Q : A -> B -> Prop) l m : Forall2 Q l m -> List.length l = List.length m.
  Proof. induction 1; cbn; auto. Qed.
  Lemma F2_app {A B} (Q : A -> B -> Prop) l1 : forall l2 m1 m2, Forall2 Q (l1 ++ l2) (m1 ++ m2) ->
    List.length m1 <= List.length l1 -> List.length m2 <= List.length l2 -> Forall2 Q l1 m1 /\ Forall2 Q l2 m2.
  Proof.
    intros l2 m1 m2 H H1 H2. apply Forall2_app_inv_l in H as (k1 & k2 & F1 & F2 & E).
    assert (L : List.length k1 = List.length m1).
    { pose proof (F2_length _ _ _ F1). pose proof (F2_length _ _ _ F2). apply (f_equal (@List.length B)) in E. rewrite !app_length in E. lia. }
    assert (X : k1 = m1 /\ k2 = m2); [|destruct X as [<- <-]; auto].
    clear -E L. revert m1 L E. induction k1 as [|x k1 IH]; intros [|y m1] L E; try discriminate L; [auto|]. cbn in E. inversion E; subst. cbn in L.
    destruct (IH m1) as [-> ->]; auto.
  Qed.
  Definition good (x : bop) : Prop := forall y, skeleton y = skeleton x -> wf_bop x -> Forall2 R (plugins x) (plugins y) -> rel x y.
  Lemma good_list l : forall l', Forall good l -> All wf_bop l -> map skeleton l' = map skeleton l ->
    Forall2 R (flat_map plugins l) (flat_map plugins l') -> Forall2 rel l l'.
  Proof.
    induction l as [|x l IH]; intros [|y l'] H W E F; try discriminate; [constructor|]. inversion E. inversion H; subst. destruct W as [W1 W2].
    cbn [flat_map] in F. apply F2_app in F as [F1 F2]; [| apply few_all; auto | apply few_list; auto using fewl]. constructor; auto.
  Qed.
  Lemma good_if i i' : Forall good (block i) -> wf_if i -> kif i' = kif i -> Forall2 R (if_plugins i) (if_plugins i') -> rel_if i i'.
  Proof. destruct i as [p c l com foot], i' as [p' c' l' com' foot']. intros H (_ & _ & _ & W) E F. inversion E. constructor. now apply good_list. Qed.
  Lemma all_few es : Forall (fun i => Forall few (block i)) es.
  Proof. apply Forall_forall. intros x _. apply fewl. Qed.
  Lemma good_ifs es : forall es', Forall (fun i => Forall good (block i)) es -> All wf_if es -> map kif es' = map kif es ->
    Forall2 R (flat_map if_plugins es) (flat_map if_plugins es') -> Forall2 rel_if es es'.
  Proof.
    induction es as [|x l IH]; intros [|y l'] H W E F; try discriminate; [constructor|]. inversion E. inversion H; subst. destruct W as [W1 W2].
    cbn [flat_map] in F. apply F2_app in F as [F1 F2]; [|apply few_if; auto using fewl|apply few_ifs; auto using all_few]. constructor; [now apply good_if|auto].
  Qed.
  Lemma good_all x : good x.
  Proof.
    induction x as [|p|p|i es e IHi IHes IHe] using bop_ind'; intros y E W F; try contradiction.
    - cbn [plugins] in F. destruct y as [|q|q|i' es' e']; [inversion F| | |rewrite skel_branch in E; discriminate];
      inversion F; subst; econstructor; eauto.
    - apply skel_inv in E as (i' & es' & e' & -> & E1 & E2 & E3). destruct W as (W1 & W2 & W3). rewrite !branch_plugins in F.
      destruct e as [p l com foot], e' as [p' l' com' foot']. cbn [eblock] in *. destruct W3 as (_ & _ & W3 & _). inversion E3; subst.
      pose proof (few_if i i' (fewl _) W1 E1). pose proof (few_ifs es es' (all_few _) W2 E2). pose proof (few_list l l' (fewl _) W3 H1).
      apply F2_app in F as [F1 F]; [|assumption|rewrite !app_length; lia]. apply F2_app in F as [F2 F3]; [|assumption..].
      constructor; [now apply good_if|now apply good_ifs|now apply good_list].
  Qed.

  (** sections and configurations *)
  Definition rel_section (s s' : section) : Prop :=
    ps_pos s' = ps_pos s /\ ps_type s' = ps_type s /\ ps_com s' = ps_com s /\ ps_foot s' = ps_foot s /\ Forall2 rel (ps_bops s) (ps_bops s').
  Definition rel_config (c c' : config) : Prop :=
    Forall2 rel_section (cf_input c) (cf_input c') /\ Forall2 rel_section (cf_filter c) (cf_filter c') /\ Forall2 rel_section (cf_output c) (cf_output c') /\
    cf_foot c' = cf_foot c /\ cf_warnings c' = cf_warnings c.
  Lemma few_sections t l : forall l', All (wf_section t) l -> map skeleton_section l' = map skeleton_section l ->
    List.length (flat_map plugins_section l') <= List.length (flat_map plugins_section l).
  Proof.
    induction l as [|x l IH]; intros [|y l'] W E; try discriminate; [reflexivity|]. cbn [map] in E. inversion E. destruct W as [(_ & _ & _ & W1) W2].
    cbn [flat_map]. rewrite !app_length. apply Nat.add_le_mono; [apply few_list; auto using fewl|auto].
  Qed.
  Lemma good_sections t l : forall l', All (wf_section t) l -> map skeleton_section l' = map skeleton_section l ->
    Forall2 R (flat_map plugins_section l) (flat_map plugins_section l') -> Forall2 rel_section l l'.
  Proof.
    induction l as [|x l IH]; intros [|y l'] W E F; try discriminate; [constructor|]. cbn [map] in E. inversion E. destruct W as [(_ & _ & _ & W1) W2].
    cbn [flat_map] in F. apply F2_app in F as [F1 F2]; [|apply few_list; auto using fewl|eapply few_sections; eauto]. constructor; [|auto].
    repeat split; auto. apply good_list; auto. apply Forall_forall. intros z _. apply good_all.
  Qed.
  Theorem same_shape c c' : wf_config c -> skeleton_config c' = skeleton_config c ->
    Forall2 R (plugins_config c) (plugins_config c') -> rel_config c c'.
  Proof.
    intros (W1 & W2 & W3 & _) E F. unfold skeleton_config in E. inversion E as [[E1 E2 E3 E4 E5]]. unfold plugins_config in F. rewrite !flat_map_app in F.
    pose proof (few_sections _ _ _ W1 E1). pose proof (few_sections _ _ _ W2 E2). pose proof (few_sections _ _ _ W3 E3).
    apply F2_app in F as [F1 F]; [|assumption|rewrite !app_length; lia]. apply F2_app in F as [F2 F3]; [|assumption..].
    split; [eapply good_sections; eauto|]. split; [eapply good_sections; eauto|]. split; [eapply good_sections; eauto|]. auto.
  Qed.
End Rel.

(** ** Auto-fix *)
(** [p'] is [p], maybe with a further attribute id *)
Definition grown (p p' : plugin) : Prop :=
  p' = p \/ exists id, p' = with_id p id /\ literal_value DQ id /\ (U (plugin_texts p) -> utf8_text id).
Lemma grown_name p p' : grown p p' -> pname p' = pname p.
Proof. intros [->|(id & -> & _)]; [reflexivity|]. now destruct p. Qed.
Lemma All_iff {A} (P : A -> Prop) l : All P l <-> Forall P l.
Proof. apply All_Forall. Qed.
Lemma id_word : name_ok (b "id").
Proof. left. split; [discriminate|]. change (b "id") with [105; 100]%N. apply Forall_cons; [|apply Forall_cons; [|constructor]]; unfold word_char, bareword_char, bareword_start; lia. Qed.
Lemma grown_pr p p' : grown p p' -> pr_item p -> pr_item p'.
Proof.
  intros G [P N]. split; [|now rewrite (grown_name _ _ G)]. destruct G as [->|(id & -> & L & _)]; [exact P|]. destruct p as [q n l com foot].
  destruct P as (P1 & P2 & P3 & P4). split; [exact P1|]. split; [exact P2|]. split; [exact P3|]. rewrite All_iff in *. apply Forall_app. split; [exact P4|].
  constructor; [|constructor]. split; [exact id_word|]. split; [exact L|constructor].
Qed.
Lemma grown_texts p p' : grown p p' -> U (plugin_texts p) -> U (plugin_texts p').
Proof.
  intros [->|(id & -> & _ & V)] H; [exact H|]. specialize (V H). destruct p as [q n l com foot]. cbn [with_id plugin_texts] in *. rewrite flat_map_app.
  rewrite !U_cons, !U_app in *. cbn [flat_map attr_texts str_texts sa_name sa_val sa_com com_texts map app]. rewrite !U_cons.
  assert (utf8_text (b "id")) by (apply ascii_b; vm_compute; reflexivity). pose proof U_nil. tauto.
Qed.
Notation same := (rel grown).
Lemma same_beside x x' y y' : same x x' -> same y y' -> beside x y -> beside x' y'.
Proof.
  intros H K B. inversion H as [? ? p p' [-> | ->] [-> | ->] _|i i' es es' ep el el' ecom efoot _ _ F]; subst; try exact I;
  inversion K as [? ? q q' [-> | ->] [-> | ->] G|? ? ? ? ? ? ? ? ? _ _ _]; subst; try exact I;
  cbn [beside] in *; intros E; rewrite (grown_name _ _ G); apply B; destruct E as (-> & ? & ?); inversion F; subst; repeat split.
Qed.
Lemma same_apart l l' : Forall2 same l l' -> apart l -> apart l'.
Proof.
  induction 1 as [|x x' l l' H F IH]; [trivial|]. intros [A B]. split; [|now apply IH]. destruct F; [exact I|]. eapply same_beside; eauto.
Qed.
Lemma F2_all {A} (Q : A -> A -> Prop) (P : A -> Prop) l l' : Forall (fun x => forall y, Q x y -> P x -> P y) l -> Forall2 Q l l' -> All P l -> All P l'.
Proof. intros H F. rewrite !All_iff. induction F; intros K; [constructor|]. inversion H; inversion K; subst. constructor; auto. Qed.
Lemma same_pr_if i i' : Forall (fun x => forall y, same x y -> pr_bop x -> pr_bop y) (block i) -> rel_if grown i i' -> pr_if i -> pr_if i'.
Proof. intros H K. destruct K as [p c l l' com foot F]. intros (P1 & P2 & P3 & P4 & P5). cbn [block] in H. repeat split; auto; [eapply F2_all; eauto|eapply same_apart; eauto]. Qed.
Lemma same_pr x : forall y, same x y -> pr_bop x -> pr_bop y.
Proof.
  induction x as [|p|p|i es e IHi IHes IHe] using bop_ind'; intros y H P; try contradiction.
  - inversion H as [? ? q q' [E|E] [-> | ->] G|]; subst; try discriminate; inversion E; subst; eapply grown_pr; eauto.
  - inversion H as [? ? q q' [E|E] [-> | ->] G|]; subst; try discriminate; inversion E; subst; eapply grown_pr; eauto.
  - inversion H as [? ? q q' [E|E] _ _|? i' ? es' ep el el' ecom efoot H1 H2 H3]; subst; try discriminate. destruct P as (P1 & P2 & P3). cbn [eblock] in IHe.
    split; [eapply same_pr_if; eauto|]. split.
    + eapply F2_all; [|exact H2|exact P2]. eapply Forall_impl; [|exact IHes]. intros z Hz z'. now apply same_pr_if.
    + destruct P3 as (P3 & P4 & P5 & P6). repeat split; auto; [eapply F2_all; eauto|eapply same_apart; eauto].
Qed.
Lemma F2_texts {A} (Q : A -> A -> Prop) (t : A -> list bytes) l l' : Forall (fun x => forall y, Q x y -> U (t x) -> U (t y)) l -> Forall2 Q l l' -> U (flat_map t l) -> U (flat_map t l').
Proof. intros H F. induction F; [trivial|]. inversion H; subst. cbn [flat_map]. rewrite !U_app. intros [? ?]. split; auto. Qed.
Lemma same_if_texts i i' : Forall (fun x => forall y, same x y -> U (bop_texts x) -> U (bop_texts y)) (block i) -> rel_if grown i i' -> U (if_texts i) -> U (if_texts i').
Proof. intros H K. destruct K as [p c l l' com foot F]. cbn [if_texts block] in *. rewrite !U_app. intros (P1 & P2 & P3). split; [exact P1|]. split; [eapply F2_texts; eauto|exact P3]. Qed.
Lemma same_texts x : forall y, same x y -> U (bop_texts x) -> U (bop_texts y).
Proof.
  induction x as [|p|p|i es e IHi IHes IHe] using bop_ind'; intros y H P.
  - inversion H as [? ? q q' [E|E] _ _|]; discriminate.
  - inversion H as [? ? q q' [E|E] [-> | ->] G|]; subst; try discriminate; inversion E; subst; eapply grown_texts; eauto.
  - inversion H as [? ? q q' [E|E] [-> | ->] G|]; subst; try discriminate; inversion E; subst; eapply grown_texts; eauto.
  - inversion H as [? ? q q' [E|E] _ _|? i' ? es' ep el el' ecom efoot H1 H2 H3]; subst; try discriminate.
    change (U (if_texts i ++ flat_map if_texts es ++ else_texts (ElB ep el ecom efoot))) in P. change (U (if_texts i' ++ flat_map if_texts es' ++ else_texts (ElB ep el' ecom efoot))).
    rewrite !U_app in *. destruct P as (P1 & P2 & P3). split; [eapply same_if_texts; eauto|]. split.
    + eapply F2_texts; [|exact H2|exact P2]. eapply Forall_impl; [|exact IHes]. intros z Hz z'. now apply same_if_texts.
    + cbn [else_texts eblock] in *. rewrite !U_app in *. split; [eapply F2_texts; [exact IHe|exact H3|tauto]|tauto].
Qed.
Lemma same_sections t l l' : Forall2 (rel_section grown) l l' -> All (pr_section t) l -> All (pr_section t) l'.
Proof.
  intros F P. eapply F2_all; [|exact F|exact P]. apply Forall_forall. intros s _ s' (E1 & E2 & E3 & E4 & K) (Q1 & Q2 & Q3 & Q4 & Q5).
  unfold pr_section. rewrite E2, E3, E4. repeat split; auto; [eapply F2_all; [|exact K|exact Q4]|eapply same_apart; eauto]. apply Forall_forall. intros x _. apply same_pr.
Qed.
Lemma same_section_texts l l' : Forall2 (rel_section grown) l l' -> U (flat_map section_texts l) -> U (flat_map section_texts l').
Proof.
  intros F P. eapply F2_texts; [|exact F|exact P]. apply Forall_forall. intros s _ s' (E1 & E2 & E3 & E4 & K). unfold section_texts. rewrite E3, E4, !U_app. intros (Q1 & Q2).
  split; [eapply F2_texts; [|exact K|exact Q1]|exact Q2]. apply Forall_forall. intros x _. apply same_texts.
Qed.
Lemma F2_nil {A B} (Q : A -> B -> Prop) l l' : Forall2 Q l l' -> l' = [] -> l = [].
Proof. now intros [|] E. Qed.
Theorem grown_printable c c' : rel_config grown c c' -> printable c -> printable c'.
Proof.
  intros (R1 & R2 & R3 & E1 & E2) (P1 & P2 & P3 & P4 & P5). split; [eapply same_sections; eauto|]. split; [eapply same_sections; eauto|]. split; [eapply same_sections; eauto|].
  rewrite E1. split; [exact P4|]. intros X1 X2 X3. apply P5; eapply F2_nil; eauto.
Qed.
Theorem grown_utf8 c c' : rel_config grown c c' -> U (texts_config c) -> U (texts_config c').
Proof.
  intros (R1 & R2 & R3 & E1 & E2). unfold texts_config, sections. rewrite !flat_map_app, !U_app, E1. intros ((? & ? & ?) & ?).
  repeat split; auto; eapply same_section_texts; eauto.
Qed.

(** the id that auto-fix makes is the value of a literal iff every double quote of the name of the plugin follows a backslash *)
Definition nameable (p : plugin) : Prop := forall x y, plugin_name p = x ++ DQ :: y -> exists z, x = z ++ [BSL].
Lemma word_nameable p : word (plugin_name p) -> nameable p.
Proof.
  intros [_ W] x y E. exfalso. rewrite E, Forall_app in W. destruct W as [_ W]. inversion W as [|? ? H _]. unfold word_char, bareword_char, bareword_start, DQ in H. lia.
Qed.
Lemma digit_not c : is_digit c = true -> c <> DQ /\ c <> BSL /\ (c < 128)%N.
Proof. unfold is_digit, DQ, BSL. rewrite andb_true_iff, !N.leb_le. lia. Qed.
Lemma auto_literal p k : literal_value DQ (plugin_name p ++ b "-" ++ itoa k) <-> nameable p.
Proof.
  assert (D : Forall (fun c => c <> DQ /\ c <> BSL) (b "-" ++ itoa k)).
  { apply Forall_app. split; [apply Forall_cons; [split; discriminate|constructor]|]. eapply Forall_impl; [|apply itoa_digit]. intros c H. apply digit_not in H. tauto. }
  remember (b "-" ++ itoa k) as t eqn:Et. assert (N : t <> []) by (subst t; discriminate). clear Et. split.
  - intros [H _] x y E. apply (H x (y ++ t)). now rewrite E, <- app_assoc.
  - intros H. split.
    + intros x y E. apply app_eq_app in E as (l & [[E1 E2]|[E1 E2]]).
      * destruct l as [|d l]; [|inversion E2; subst d; apply (H x l E1)]. exfalso. cbn in E2. subst t. inversion D. tauto.
      * exfalso. subst t. apply Forall_app in D as [_ D]. inversion D. tauto.
    + intros x E. destruct (exists_last N) as (t' & d & ->). rewrite app_assoc in E. apply app_inj_tail in E as [_ ->]. apply Forall_app in D as [_ D]. inversion D. tauto.
Qed.
Lemma fixed_grown ps : forall k, Forall (fun p => missing p = true -> nameable p) ps -> Forall2 grown ps (fixed k ps).
Proof.
  induction ps as [|p ps IH]; intros k H; [constructor|]. inversion H; subst. cbn [fixed]. constructor; [|auto]. unfold fix_plugin. destruct (missing p); [|now left].
  right. eexists. split; [reflexivity|]. split; [now apply auto_literal, H2|]. intros V. apply utf8_app; [destruct p; cbn in *; now apply U_cons in V|].
  apply utf8_app; [apply ascii_b; vm_compute; reflexivity|]. apply utf8_ascii. eapply Forall_impl; [|apply itoa_digit]. intros c Hc. now apply digit_not in Hc.
Qed.
