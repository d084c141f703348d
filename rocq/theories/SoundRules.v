(** Every tree built by a derivation is well formed, and its items lie in the text
    it was read from. *)
From Coq Require Import List NArith ZArith Bool String Arith Lia.
From Verif Require Import Bytes Utf8 F64 Ast Peg Actions Engine Parser GrammarGen AstPrint EscapeFacts QuoteFacts PosFacts Run EngineFacts
  Matches ParseFacts Termination PegSem Det LexFacts Tree Sound Rules SoundLex.
Import ListNotations.
Notation gap_e := Rules.gap_e.

(** Loops over lists of values *)
Definition v_attr (v : val) : option attr := match v with VAttr a => Some a | _ => None end.
Definition v_hentry (v : val) : option hentry := match v with VHEntry a => Some a | _ => None end.
Definition v_elseif (v : val) : option ifblock := match v with VElseIf a => Some a | _ => None end.
Definition v_expr (v : val) : option cexpr := match v with VExpr a => Some a | _ => None end.
Definition v_section (v : val) : option section := match v with VSection a => Some a | _ => None end.
Lemma attributes_some l xs : all_some v_attr l = Some xs -> attributes_loop l = inl xs.
Proof.
  revert xs. induction l as [|v l IH]; intros xs H; cbn in H; [now inversion H|]. destruct v; try discriminate H. cbn in *.
  destruct (all_some v_attr l); [|discriminate]. rewrite (IH _ eq_refl). now inversion H.
Qed.
Lemma hentries_some l xs : all_some v_hentry l = Some xs -> hentries_loop l = Some xs.
Proof.
  revert xs. induction l as [|v l IH]; intros xs H; cbn in H; [now inversion H|]. destruct v; try discriminate H. cbn in *.
  destruct (all_some v_hentry l); [|discriminate]. rewrite (IH _ eq_refl). now inversion H.
Qed.
Lemma else_ifs_some l xs : all_some v_elseif l = Some xs -> else_ifs_loop l = inl xs.
Proof.
  revert xs. induction l as [|v l IH]; intros xs H; cbn in H; [now inversion H|]. destruct v; try discriminate H. cbn in *.
  destruct (all_some v_elseif l); [|discriminate]. rewrite (IH _ eq_refl). now inversion H.
Qed.
Lemma exprs_some l xs : all_some v_expr l = Some xs -> exprs_loop l = inl xs.
Proof.
  revert xs. induction l as [|v l IH]; intros xs H; cbn in H; [now inversion H|]. destruct v; try discriminate H. cbn in *.
  destruct (all_some v_expr l); [|discriminate]. rewrite (IH _ eq_refl). now inversion H.
Qed.

Section Rules.
  Variable ign : bool.
  Variable data : bytes.
  Notation g := gen_grammar.
  Notation off p := (p_off (pt_pos p)).
  Notation L p l q := (laid data (off p) l (off q)).

  (** ** Invariants of the rules *)
  Definition t_config (p : point) (v : val) (q : point) : Prop :=
    exists c ss, v = VConfig c /\ wf_config c /\ covered data (off p) ss (off q) /\
      cf_input c = of_type PTInput ss /\ cf_filter c = of_type PTFilter ss /\ cf_output c = of_type PTOutput ss.
  Definition t_section (p : point) (v : val) (q : point) : Prop :=
    exists s, v = VSection s /\ ps_type s <> PTUndef /\ wf_section (ps_type s) s /\ L p (items_section s) q /\ ps_pos s = pt_pos p /\
      exists x, seg p q = ptype_string (ps_type s) ++ x ++ b "}".
  (** neither white space nor a comment starts here *)
  Definition gap_stop (p : point) : Prop := peg ign g (EChoice [comment_e; ws_e]) [] p PFail.
  Definition t_plugin (p : point) (v : val) (q : point) : Prop :=
    exists x, v = VPlugin x /\ wf_plugin x /\ L p (items_plugin x) q /\ (gap_stop p -> match x with Plugin _ _ _ c _ => c = [] end).
  Definition t_branch (p : point) (v : val) (q : point) : Prop :=
    exists i es e, v = VBranch i es e /\ wf_bop (BBranch i es e) /\ L p (items_bop (BBranch i es e)) q.
  Definition t_bop (p : point) (v : val) (q : point) : Prop := t_branch p v q \/ t_plugin p v q.
  Definition t_attribute (p : point) (v : val) (q : point) : Prop :=
    exists a, v = VAttr a /\ wf_attr true a /\ L p (items_attr a) q.
  Definition t_elem (p : point) (v : val) (q : point) : Prop :=
    exists a, v = VAttr a /\ wf_attr false a /\ L p (items_attr a) q /\ attr_com a = [].
  Definition t_value (p : point) (v : val) (q : point) : Prop := t_elem p v q \/ t_plugin p v q.
  Definition t_array (p : point) (v : val) (q : point) : Prop :=
    exists l f, v = VAttr (AtArr zero_pos [] l [] f) /\ com_ok f /\ All (wf_attr false) l /\ L p (flat_map items_attr l) q.
  Definition t_hentries (p : point) (v : val) (q : point) : Prop :=
    exists l, v = VHEntries l /\ All wf_hentry l /\ L p (flat_map items_hentry l) q.
  Definition t_hentry (p : point) (v : val) (q : point) : Prop :=
    exists e, v = VHEntry e /\ wf_hentry e /\ L p (items_hentry e) q.
  Definition items_if (x : ifblock) : list item :=
    match x with IfB p c l _ _ => ITok p (b "if") :: items_cond c ++ flat_map items_bop l end.
  Definition t_if (p : point) (v : val) (q : point) : Prop := exists x, v = VIf x /\ wf_if x /\ L p (items_if x) q.
  Definition t_elseif (p : point) (v : val) (q : point) : Prop := exists x, v = VElseIf x /\ wf_if x /\ L p (items_elseif x) q.
  Definition t_else (p : point) (v : val) (q : point) : Prop :=
    exists l f, v = VElse (ElB (pt_pos p) l [] f) /\ com_ok f /\ All wf_bop l /\ L p (ITok (pt_pos p) (b "else") :: flat_map items_bop l) q.
  Definition t_cond (p : point) (v : val) (q : point) : Prop := exists c, v = VCond c /\ wf_cond c /\ L p (items_cond c) q.
  Definition t_expr (p : point) (v : val) (q : point) : Prop :=
    exists e, v = VExpr e /\ wf_cexpr true e /\ bo_of e = no_op /\ L p (items_body e) q.
  Definition t_rvalue (p : point) (v : val) (q : point) : Prop :=
    exists r, as_rvalue v = Some r /\ wf_rvalue r /\ L p (items_rvalue r) q.

  Definition invs : list (string * (point -> val -> point -> Prop)) :=
    [("init", t_config); ("config", t_config); ("pluginSection", t_section); ("branchOrPlugin", t_bop); ("plugin", t_plugin);
     ("attribute", t_attribute); ("value", t_value); ("array", t_array); ("hash", t_elem); ("hashentries", t_hentries);
     ("hashentry", t_hentry); ("branch", t_branch); ("ifCond", t_if); ("elseIf", t_elseif); ("elseCond", t_else);
     ("condition", t_cond); ("expression", t_expr); ("negativeExpression", t_expr); ("inExpression", t_expr);
     ("notInExpression", t_expr); ("rvalue", t_rvalue); ("compareExpression", t_expr); ("regexpExpression", t_expr)]%string.
  Fixpoint find_inv (n : string) (l : list (string * (point -> val -> point -> Prop))) : point -> val -> point -> Prop :=
    match l with [] => fun _ _ _ => True | (k, t) :: l' => if String.eqb k n then t else find_inv n l' end.
  Definition T (n : string) : point -> val -> point -> Prop := find_inv n invs.

  Notation ok := (Sound.ok ign g data T).
  Notation okt := (Sound.okt ign g data T).

  (** ** Tactics *)
  Lemma r_step p q : Reach data p -> Steps p q -> Reach data q. Proof. apply steps_reach. Qed.
  Lemma star_stop e p r : pegt ign g e p r -> forall l q, r = Some (l, q) -> peg ign g e [] q PFail.
  Proof.
    induction 1 as [e p H|e p v en' q1 l1 q2 H1 H2 IH|e p H|e p v en' q1 H1 H2 IH]; intros l q E; try discriminate E.
    - injection E as <- <-. exact H.
    - injection E as <- <-. exact (IH _ _ eq_refl).
  Qed.
  Lemma ok_gaps_stop en p v en' q : ok gaps_e en p v en' q -> gap_stop q.
  Proof.
    intros H. apply oi_act in H as (v0 & _ & H & _). inversion H; subst. match goal with K : pegt _ _ _ _ _ |- _ => exact (star_stop _ _ _ K _ _ eq_refl) end.
  Qed.
  Lemma gap_first lb es en p v0 en' q : peg ign g (ESeq (ELab lb gap_e :: es)) en p (POk v0 en' q) -> gap_stop p -> exists l, v0 = VList (VList [] :: l).
  Proof.
    intros H Z. inversion H; subst; try match goal with K : _ \/ _ |- _ => destruct K; discriminate end.
    match goal with K : pegs _ _ _ _ _ _ |- _ => inversion K; subst; try match goal with K : _ \/ _ |- _ => destruct K; discriminate end end.
    match goal with K : peg _ _ (ELab _ _) _ _ _ |- _ => inversion K; subst; try match goal with K : _ \/ _ |- _ => destruct K; discriminate end end.
    match goal with K : peg _ _ gap_e _ _ _ |- _ => inversion K; subst end.
    match goal with K : pegt _ _ _ _ _ |- _ => inversion K; subst; [eauto|] end.
    match goal with A : peg _ _ _ _ p (POk _ _ _) |- _ => discriminate (peg_det _ _ _ _ _ _ _ A Z) end.
  Qed.
  Lemma oi_seqv e es en p v en' q : ok (ESeq (e :: es)) en p v en' q -> exists v1 en1 q1 l, v = VList (v1 :: l) /\ ok e en p v1 en1 q1 /\ ok (ESeq es) en1 q1 (VList l) en' q.
  Proof. inversion 1 as [| | | | | | | | | | |? ? ? ? ? ? K| | | | ]; subst. inversion K; subst. eexists _, _, _, _. split; [reflexivity|]. split; [eassumption|constructor; eassumption]. Qed.
  Ltac reach := repeat first [eassumption | eapply r_step; [|eassumption]].
  Ltac st H := let S := fresh "S" in let O := fresh "O" in
    pose proof (ok_steps _ _ _ _ _ _ _ _ _ _ H) as S; pose proof (steps_off _ _ S) as O.
  Ltac one H :=
    match type of H with
    | Sound.ok _ _ _ _ (ESeq []) _ _ _ _ _ => apply oi_seq0 in H as (-> & ->)
    | Sound.ok _ _ _ _ (ESeq (_ :: _)) _ _ _ _ _ =>
        let K := fresh "K" in apply oi_seq in H as (? & ? & ? & ? & K & H); one K; one H
    | Sound.ok _ _ _ _ (ELab _ _) _ _ _ _ _ => apply oi_lab in H as (-> & ? & H); one H
    | Sound.ok _ _ _ _ (EStateCode _) _ _ _ _ _ => apply oi_state in H as (-> & ->)
    | Sound.ok _ _ _ _ warn_e _ _ _ _ _ => apply oi_state in H as (-> & ->)
    | Sound.ok _ _ _ _ (EAndCode _) _ _ _ _ _ => apply oi_and in H as (? & -> & ->)
    | Sound.ok _ _ _ _ gaps_e _ _ _ _ _ => st H; let Z := fresh "GS" in pose proof (ok_gaps_stop _ _ _ _ _ H) as Z; apply ok_gaps in H as ->
    | Sound.ok _ _ _ _ gap_e _ _ _ _ _ => st H; let G := fresh "G" in pose proof (ok_gap_text _ _ _ _ _ _ _ _ _ H) as G; apply ok_gap in H as (-> & H)
    | Sound.ok _ _ _ _ in_op_e _ _ _ _ _ => st H; apply ok_choice_env in H as ->
    | Sound.ok _ _ _ _ not_in_op_e _ _ _ _ _ => st H; apply ok_choice_env in H as ->
    | Sound.ok _ _ _ _ (ENot _) _ _ _ _ _ => apply oi_not in H as (-> & ->)
    | Sound.ok _ _ _ _ eof_e _ _ _ _ _ => apply oi_not in H as (-> & ->)
    | Sound.ok _ _ _ _ (lit _) _ _ _ _ _ => st H; apply oi_lit in H as (-> & _ & H); apply lit_ascii in H; [|repeat constructor]
    | Sound.ok _ _ _ _ (ERef _) _ _ _ _ _ => st H; apply oi_ref in H as (-> & _ & ? & H);
        cbv [T invs find_inv String.eqb Ascii.eqb Bool.eqb] in H
    | Sound.ok _ _ _ _ (close _ _) _ _ _ _ _ => st H; pose proof (ok_choice_env _ _ _ _ _ _ _ _ _ _ H) as ->
    | Sound.ok _ _ _ _ name_e _ _ _ _ _ => st H; apply ok_name in H as (H & ->)
    | Sound.ok _ _ _ _ ws_e _ _ _ _ _ => st H; apply oi_act in H as (? & H & _); apply oi_plus in H as (-> & _)
    | Sound.ok _ _ _ _ (EOpt _) _ _ _ _ _ => st H; apply oi_opt in H as (-> & H)
    | Sound.ok _ _ _ _ (EStar _) _ _ _ _ _ => st H; apply oi_star in H as (-> & ? & -> & H)
    | Sound.ok _ _ _ _ string_e _ _ _ _ _ => st H
    | Sound.ok _ _ _ _ (EAct _ _) _ _ _ _ _ => st H
    | Sound.ok _ _ _ _ (EChoice _) _ _ _ _ _ => st H; pose proof (ok_choice_env _ _ _ _ _ _ _ _ _ _ H) as ->
    | _ => st H
    end.
  (** Open an action block: its body and the value *)
  Ltac act H E := let R := fresh "R" in let S := fresh "S" in let M := fresh "M" in
    apply oi_act in H as (? & H & _ & M & R & S & E); pose proof (steps_off _ _ S).
  Ltac ev E := cbn [run_action lookup bind String.eqb Ascii.eqb Bool.eqb] in E.

  Lemma okt_laid {X} (f : val -> option X) (P : X -> Prop) (it : X -> list item) e :
    (forall p v en' q, ok e [] p v en' q -> Reach data p -> exists x, f v = Some x /\ P x /\ L p (it x) q) ->
    forall l p q, okt e p l q -> Reach data p -> exists xs, all_some f l = Some xs /\ All P xs /\ L p (flat_map it xs) q.
  Proof.
    intros H. induction l as [|v l IH]; intros p q K R; inversion K; subst.
    - exists []. cbn. auto.
    - match goal with A : Sound.ok _ _ _ _ e _ p _ _ ?q1, B : Sound.okt _ _ _ _ _ _ l _ |- _ =>
        destruct (H _ _ _ _ A R) as (x & E1 & E2 & E3); destruct (IH _ _ B) as (xs & F1 & F2 & F3);
        [eapply steps_reach; [exact R|exact (ok_steps _ _ _ _ _ _ _ _ _ _ A)]|] end.
      exists (x :: xs). cbn [all_some flat_map]. rewrite E1, F1. split; [reflexivity|]. split; [split; assumption|]. eapply laid_app; eauto.
  Qed.

  Lemma named_item p n o : n <> [] -> own p n o = ITok p n.
  Proof. destruct n; [congruence|reflexivity]. Qed.
  Lemma name_nonempty n : name_ok n -> n <> [].
  Proof. intros [[H _]|(q & v & _ & _ & ->)]; [exact H|discriminate]. Qed.
  Lemma weak p l q p' q' : L p l q -> off p' <= off p -> off q <= off q' -> L p' l q'.
  Proof. apply laid_weak. Qed.

  Lemma weak_l p l hi p' : laid data (off p) l hi -> off p' <= off p -> laid data (off p') l hi.
  Proof. intros. eapply laid_weak; eauto. Qed.

  Lemma laid_app2 p1 l q1 p2 m q2 lo hi : L p1 l q1 -> L p2 m q2 -> lo <= off p1 -> off q1 <= off p2 -> off q2 <= hi -> laid data lo (l ++ m) hi.
  Proof. intros A B X Y Z. eapply laid_weak; [eapply laid_app; [exact A|eapply laid_weak; [exact B|exact Y|exact Z]]|exact X|reflexivity]. Qed.
  Ltac lays := eapply laid_app2; [eassumption|eassumption|lia|lia|lia].

  (** ** Values *)
  Lemma r_value p v en q : ok value_e [] p v en q -> Reach data p -> t_value p v q.
  Proof.
    intros H R. apply oi_choice in H as [(_ & en1 & H)|H]; [one H; now right|]. left.
    apply oi_choice in H as [(_ & en1 & H)|H].
    { st H. apply ok_bareword in H as (s & -> & Ep & En & Ec & Es & Et). exists (AtStr s). split; [reflexivity|]. split.
      - cbn. rewrite En, Ec. split; [reflexivity|]. split; [exact Es|constructor].
      - cbn [items_attr]. rewrite En. cbn [own]. rewrite Ep. split; [|exact Ec]. eapply laid_tok; eauto. cbn. lia. }
    apply oi_choice in H as [(_ & en1 & H)|H].
    { st H. apply ok_string, quoted_str in H as (s & -> & Ep & En & Ec & Es & Et). exists (AtStr s). split; [reflexivity|]. split.
      - cbn. rewrite En, Ec. split; [reflexivity|]. split; [exact Es|constructor].
      - cbn [items_attr]. rewrite En. cbn [own]. rewrite Ep. split; [|exact Ec]. eapply laid_tok; eauto. cbn. lia. }
    apply oi_choice in H as [(_ & en1 & H)|H].
    { st H. apply ok_number in H as (n & -> & Ep & En & Ec & Es). exists (AtNum n). split; [reflexivity|]. split.
      - cbn. rewrite En, Ec. split; [reflexivity|]. split; [exact Es|constructor].
      - cbn [items_attr]. rewrite En. cbn [own]. rewrite Ep. split; [|exact Ec]. cbn. split; [now left|lia]. }
    apply oi_choice in H as [(_ & en1 & H)|H].
    { one H. destruct H as (l & f & -> & Hf & Hl & HL). eexists. split; [reflexivity|]. split.
      - cbn. split; [reflexivity|]. split; [constructor|]. auto.
      - cbn [items_attr own]. split; [|reflexivity]. cbn [laid]. split; [now left|exact HL]. }
    apply oi_choice in H as [(_ & en1 & H)|H].
    { one H. exact H. }
    apply oi_choice in H as [(_ & en1 & H)|H]; [|now apply oi_choice0 in H]. apply oi_and in H as (X & _). discriminate X.
  Qed.

  Lemma set_com_wf nm a c : wf_attr nm a -> com_ok c -> wf_attr nm (set_attr_com a c).
  Proof. destruct a; cbn; tauto. Qed.
  Lemma set_com_items a c : items_attr (set_attr_com a c) = items_attr a.
  Proof. destruct a; reflexivity. Qed.

  (** the list of attributes of a plugin, or of the values of an array *)
  Lemma attrs_value (nm : bool) p v q com vs r l q' :
    ((exists a, v = VAttr a /\ wf_attr nm a /\ L p (items_attr a) q) \/ (exists x, v = VPlugin x)) -> off p <= off q ->
    gap_value com -> act_attributes v (VList vs) com = RVal r ->
    all_some v_attr vs = Some l -> All (wf_attr nm) l -> L q (flat_map items_attr l) q' ->
    exists as', r = VAttrs as' /\ All (wf_attr nm) as' /\ L p (flat_map items_attr as') q'.
  Proof.
    intros [(a & -> & W & La)|(x & ->)] O G E F Wl Ll; unfold act_attributes in E; cbn [act_attribute_comment] in E;
      cbn [iface_slice app attributes_loop] in E; rewrite (attributes_some _ _ F) in E; inversion E; subst.
    - eexists. split; [reflexivity|]. split.
      + split; [|exact Wl]. apply set_com_wf; [exact W|now apply gap_block].
      + cbn [flat_map]. rewrite set_com_items. eapply laid_app; eauto.
    - eexists. split; [reflexivity|]. split; [exact Wl|]. eapply weak; eauto.
  Qed.
  Ltac lay := match goal with H : laid data _ ?l _ |- laid data _ ?l _ => eapply laid_weak; [exact H|lia|lia] end.


  Lemma ok_more (nm : bool) e :
    (forall p v en q, ok e [] p v en q -> Reach data p -> exists a, v = VAttr a /\ wf_attr nm a /\ L p (items_attr a) q) ->
    forall l p q, okt e p l q -> Reach data p -> exists xs, all_some v_attr l = Some xs /\ All (wf_attr nm) xs /\ L p (flat_map items_attr xs) q.
  Proof.
    intros H. apply okt_laid. intros p0 v0 en0 q0 K R. destruct (H _ _ _ _ K R) as (a & -> & W & La). exists a. auto.
  Qed.
  Lemma r_more_attr p v en q : ok more_attr_e [] p v en q -> Reach data p -> exists a, v = VAttr a /\ wf_attr true a /\ L p (items_attr a) q.
  Proof.
    intros H R0. act H E. one H. ev E.
    match goal with N : t_attribute _ _ _ |- _ => destruct N as (a & -> & W & La) end.
    cbn [act_attribute_comment] in E. inversion E; subst. eexists. split; [reflexivity|]. split; [apply set_com_wf; [exact W|now apply gap_block]|].
    rewrite set_com_items. lay.
  Qed.

  Lemma r_attrs p v en q : ok attrs_e [] p v en q -> Reach data p -> exists l, v = VAttrs l /\ All (wf_attr true) l /\ L p (flat_map items_attr l) q.
  Proof.
    intros H R0. act H E. one H. ev E.
    match goal with N : t_attribute _ _ _ |- _ => destruct N as (a & -> & W & La) end.
    match goal with N : Sound.okt _ _ _ _ _ _ _ _ |- _ => eapply (ok_more true) in N as (xs & E1 & E2 & E3); [|exact r_more_attr|reach] end.
    match goal with O : gap_value _ |- _ => edestruct attrs_value as (l & -> & Wl & Ll); [left; eauto| |exact O|exact E|exact E1|exact E2|exact E3|] end; [lia|].
    exists l. split; [reflexivity|]. split; [exact Wl|]. lay.
  Qed.
  Lemma r_more_value p v en q : ok more_value_e [] p v en q -> Reach data p -> exists a, v = VAttr a /\ wf_attr false a /\ L p (items_attr a) q.
  Proof.
    intros H R0. act H E. one H. ev E.
    match goal with N : t_value _ _ _ |- _ => destruct N as [(a & -> & W & La & _)|(x' & -> & _)] end; cbn [act_attribute_comment] in E; [|discriminate E].
    inversion E; subst. eexists. split; [reflexivity|]. split; [apply set_com_wf; [exact W|now apply gap_block]|].
    rewrite set_com_items. lay.
  Qed.
  Lemma r_values p v en q : ok values_e [] p v en q -> Reach data p -> exists l, v = VAttrs l /\ All (wf_attr false) l /\ L p (flat_map items_attr l) q.
  Proof.
    intros H R0. act H E. one H. ev E.
    match goal with N : Sound.okt _ _ _ _ _ _ _ _ |- _ => eapply (ok_more false) in N as (xs & E1 & E2 & E3); [|exact r_more_value|reach] end.
    match goal with N : t_value ?p _ ?q, O : gap_value _ |- _ => edestruct (attrs_value false p) as (l & -> & Wl & Ll); [| |exact O|exact E|exact E1|exact E2|exact E3|];
      [destruct N as [(a & -> & W & La & _)|(x' & -> & _)]; eauto 7|lia|] end.
    exists l. split; [reflexivity|]. split; [exact Wl|]. lay.
  Qed.
  Lemma opt_nil (A : Type) (mk : list A -> val) (P : A -> Prop) (it : A -> list item) e p v q :
    (forall p v en q, ok e [] p v en q -> Reach data p -> exists l, v = mk l /\ All P l /\ L p (flat_map it l) q) -> Reach data p ->
    (exists en, ok e [] p v en q) \/ (v = VNil /\ q = p) ->
    exists l, (v = mk l \/ v = VNil /\ l = []) /\ All P l /\ L p (flat_map it l) q.
  Proof.
    intros H R [(en & K)|[-> ->]].
    - destruct (H _ _ _ _ K R) as (l & -> & A1 & A2). exists l. auto.
    - exists []. cbn. auto.
  Qed.

  Lemma r_plugin p v en q : ok plugin_e [] p v en q -> Reach data p -> t_plugin p v q.
  Proof.
    intros H R0. apply oi_act in H as (v0 & H & P & M & R & S & E); pose proof (steps_off _ _ S).
    apply oi_seqv in H as (cv & ? & ? & l0 & Ev & K & H). one K. one H. ev E. unfold act_plugin in E.
    match goal with N : is_name _ _ _ |- _ => destruct N as (s & -> & Ep & Et & En) end.
    match goal with A : _ \/ _ |- _ => apply (opt_nil _ _ _ _ _ _ _ _ r_attrs) in A as (l & El & Wl & Ll); [|reach] end.
    match type of E with context [match ?m with Some _ => _ | None => _ end] => replace m with (Some l) in E by (destruct El as [-> |[-> ->]]; reflexivity) end.
    inversion E; subst. eexists. split; [reflexivity|]. split; [cbn; split; [exact En|]; split; [now apply gap_block|]; split; [now apply gap_block|exact Wl]|].
    cbn [items_plugin]. rewrite Ep. split; [eapply weak_l; [eapply laid_tok; [| |exact Et|]|]; [reach|eassumption|lay|lia]|].
    intros Z0. destruct (gap_first _ _ _ _ _ _ _ P Z0) as (l1 & E1). injection E1 as -> _. reflexivity.
  Qed.

  Lemma r_attribute p v en q : ok attribute_e [] p v en q -> Reach data p -> t_attribute p v q.
  Proof.
    intros H R0. act H E. one H. ev E. unfold act_attribute in E.
    match goal with N : is_name _ _ _ |- _ => destruct N as (s & -> & Ep & Et & En) end.
    match type of Et with seg ?a ?c = _ =>
      assert (Z : forall l p' q, L p' l q -> off c <= off p' -> forall o, L a (own (pt_pos a) (sa_value_string s) o :: l) q) end.
    { intros. rewrite named_item by now apply name_nonempty. eapply laid_tok; [| |exact Et|]; [reach|eassumption|]. eapply weak; [eassumption|lia|lia]. }
    match goal with N : t_value _ _ _ |- _ => destruct N as [(a & -> & W & La & _)|(x' & -> & W & La & Cx)] end.
    - destruct a as [|s'|n|p' n l c f|p' n l c f|p' n v' c]; cbn in W; try (exfalso; exact (proj1 W)); try discriminate E; inversion E; subst; eexists; (split; [reflexivity|]).

      + split; [cbn; split; [exact En|]; split; [exact (proj1 (proj2 W))|constructor]|]. apply Z with (p' := x18); [cbn; lia|lia].
      + split; [cbn; split; [exact En|]; split; [exact (proj1 (proj2 W))|constructor]|]. apply Z with (p' := x18); [cbn; lia|lia].
      + destruct W as (-> & _ & Wf & Wl). split; [cbn; repeat (split; [exact En || constructor || exact Wf|]); exact Wl|].
        destruct La as [_ La]. cbn [items_attr]. eapply Z; [exact La|lia].
      + destruct W as (-> & _ & Wf & Wl). split; [cbn; repeat (split; [exact En || constructor || exact Wf|]); exact Wl|].
        destruct La as [_ La]. cbn [items_attr]. eapply Z; [exact La|lia].
    - inversion E; subst. eexists. split; [reflexivity|]. split; [cbn [wf_attr]; split; [reflexivity|]; split; [exact En|]; split; [constructor|]; split; [exact W|]; apply Cx; assumption|].
      cbn [items_attr]. rewrite <- (named_item (pt_pos p) _ (IPos zero_pos)) by now apply name_nonempty. eapply Z; [exact La|lia].
  Qed.

  Lemma r_array p v en q : ok array_e [] p v en q -> Reach data p -> t_array p v q.
  Proof.
    intros H R0. act H E. one H. ev E. unfold act_array in E.
    match goal with A : _ \/ _ |- _ => apply (opt_nil _ _ _ _ _ _ _ _ r_values) in A as (l & El & Wl & Ll); [|reach] end.
    match goal with G : gap_value ?f |- _ =>
      assert (E2 : v = VAttr (AtArr zero_pos [] l [] (comment_block f false false))) by (destruct El as [-> |[-> ->]]; now inversion E) end.
    subst v. eexists _, _. split; [reflexivity|]. split; [now apply gap_block|]. split; [exact Wl|lay].
  Qed.
  Lemma r_hentry p v en q : ok hashentry_e [] p v en q -> Reach data p -> t_hentry p v q.
  Proof.
    intros H R0. act H E. one H. ev E. unfold act_hashentry in E.
    match goal with N : t_value _ _ _ |- _ => destruct N as [(a & -> & W & La & Ca)|(x' & -> & W & La & _)] end.
    2: { match type of E with match ?m with _ => _ end = _ => destruct m; discriminate E end. }
    match goal with N : Sound.ok _ _ _ _ (EChoice _) _ ?p1 ?k _ ?p2 |- _ =>
      assert (Z : exists ky, k = VAttr (match ky with HKStr s => AtStr s | HKNum n => AtNum n end) /\ key_ok ky /\ L p1 (items_key ky) p2) end.
    { match goal with N : Sound.ok _ _ _ _ (EChoice _) _ _ _ _ _ |- _ => rename N into HN; clear E;
        apply oi_choice in HN as [(_ & en1 & HN)|HN]; [|apply oi_choice in HN as [(_ & en1 & HN)|HN]; [|apply oi_choice in HN as [(_ & en1 & HN)|HN]; [|now apply oi_choice0 in HN]]] end.
      - apply ok_number in HN as (n & -> & Ep & En & Ec & Es). exists (HKNum n). split; [reflexivity|]. cbn. rewrite Ep. auto.
      - apply ok_bareword in HN as (s & -> & Ep & En & Ec & Es & Et). exists (HKStr s). split; [reflexivity|]. cbn [key_ok items_key]. split; [auto|].
        rewrite Ep. eapply laid_tok; [reach|eassumption|exact Et|]. cbn. lia.
      - apply ok_string, quoted_str in HN as (s & -> & Ep & En & Ec & Es & Et). exists (HKStr s). split; [reflexivity|]. cbn [key_ok items_key]. split; [auto|].
        rewrite Ep. eapply laid_tok; [reach|eassumption|exact Et|]. cbn. lia. }
    destruct Z as (ky & -> & Wk & Lk). assert (E2 : v = VHEntry (HEntry (pt_pos p) ky a (comment_block x0 true false))) by (destruct ky; now inversion E).
    subst v. eexists. split; [reflexivity|]. split; [cbn [wf_hentry]; split; [exact Wk|]; split; [now apply gap_block|split; [exact W|exact Ca]]|].
    cbn [items_hentry laid]. split; [right; now apply reach_true_pos|]. lays.
  Qed.
  Lemma r_more_hentry p v en q : ok more_hashentry_e [] p v en q -> Reach data p -> exists e, v_hentry v = Some e /\ wf_hentry e /\ L p (items_hentry e) q.
  Proof.
    intros H R0. act H E. one H. ev E. match goal with N : t_hentry _ _ _ |- _ => destruct N as (a & -> & W & La) end.
    inversion E; subst. exists a. split; [reflexivity|]. split; [exact W|lay].
  Qed.
  Lemma r_hentries p v en q : ok hashentries_e [] p v en q -> Reach data p -> t_hentries p v q.
  Proof.
    intros H R0. act H E. one H. ev E. unfold act_hashentries in E. match goal with N : t_hentry _ _ _ |- _ => destruct N as ([p' k a c] & -> & W & La) end.
    match goal with N : Sound.okt _ _ _ _ _ _ _ _ |- _ => eapply (okt_laid v_hentry wf_hentry items_hentry) in N as (xs & E1 & E2 & E3); [|exact r_more_hentry|reach] end.
    cbn [iface_slice] in E. rewrite (hentries_some _ _ E1) in E. inversion E; subst. eexists. split; [reflexivity|]. split.
    - split; [|exact E2]. destruct W as (W1 & W2 & W3). split; [exact W1|]. split; [|exact W3]. apply map_first_ok; [auto|exact W2].
    - cbn [flat_map]. lays.
  Qed.
  Lemma r_hash p v en q : ok hash_e [] p v en q -> Reach data p -> t_elem p v q.
  Proof.
    intros H R0. act H E. one H. ev E. unfold act_hash in E.
    match goal with A : (exists en1 : env, Sound.ok _ _ _ _ _ _ ?p1 _ _ ?p2) \/ _, G : gap_value ?f |- _ =>
      assert (Z : exists l, v = VAttr (AtHash zero_pos [] l [] (comment_block f false false)) /\ All wf_hentry l /\ L p1 (flat_map items_hentry l) p2);
      [destruct A as [(en1 & A)|[-> ->]] |] end.
    { match goal with A : Sound.ok _ _ _ _ (ERef _) _ _ _ _ _ |- _ => one A end.
      match goal with A : t_hentries _ _ _ |- _ => destruct A as (l & -> & Wl & Ll) end. inversion E; subst. eauto. }
    { inversion E; subst. exists []. cbn. auto. }
    destruct Z as (l & -> & Wl & Ll). eexists. split; [reflexivity|]. split; [cbn; repeat (split; [reflexivity || constructor || now apply gap_block|]); exact Wl|].
    cbn [items_attr own laid]. split; [|reflexivity]. split; [now left|lay].
  Qed.

  (** ** Conditions *)
  Lemma r_rvalue p v en q : ok rvalue_e [] p v en q -> Reach data p -> t_rvalue p v q.
  Proof.
    intros H R0. apply oi_choice in H as [(_ & en1 & H)|H].
    { st H. apply ok_string in H as (s & -> & Ep & C & Et). eexists. split; [reflexivity|]. split; [exact C|]. cbn [items_rvalue]. rewrite Ep.
      eapply laid_tok; eauto. cbn. lia. }
    apply oi_choice in H as [(_ & en1 & H)|H].
    { st H. apply ok_number in H as (n & -> & Ep & En & Ec & Es). eexists. split; [reflexivity|]. cbn. rewrite Ep. auto. }
    apply oi_choice in H as [(_ & en1 & H)|H].
    { apply ok_selector in H as (s & -> & A & B). eexists. split; [reflexivity|]. split; [exact A|exact B]. }
    apply oi_choice in H as [(_ & en1 & H)|H].
    { one H. destruct H as (l & f & -> & Hf & Hl & HL). eexists. split; [reflexivity|]. split; [cbn; auto|]. cbn [items_rvalue laid]. auto. }
    apply oi_choice in H as [(_ & en1 & H)|H].
    { st H. apply ok_regexp in H as (r & -> & Ep & C & Et). eexists. split; [reflexivity|]. split; [exact C|]. cbn [items_rvalue]. unfold items_re. rewrite Ep.
      eapply laid_tok; eauto. cbn. lia. }
    apply oi_choice in H as [(_ & en1 & H)|H]; [|now apply oi_choice0 in H]. apply oi_and in H as (X & _). discriminate X.
  Qed.
  Ltac pos := right; now apply reach_true_pos.
  Ltac bo0 := split; [cbn; repeat split; assumption|]; split; [reflexivity|].
  Lemma r_in p v en q : ok inExpression_e [] p v en q -> Reach data p -> t_expr p v q.
  Proof.
    intros H R0. act H E. one H. ev E. unfold act_in in E.
    match goal with A : t_rvalue p _ _, B : t_rvalue _ _ _ |- _ => tryif constr_eq A B then fail else
      (destruct A as (r1 & E1 & W1 & L1); destruct B as (r2 & E2 & W2 & L2)) end.
    rewrite E1, E2 in E. inversion E; subst. eexists. split; [reflexivity|]. bo0. cbn [items_body laid]. split; [pos|lays].
  Qed.
  Lemma r_not_in p v en q : ok notInExpression_e [] p v en q -> Reach data p -> t_expr p v q.
  Proof.
    intros H R0. act H E. one H. ev E. unfold act_in in E.
    match goal with A : t_rvalue p _ _, B : t_rvalue _ _ _ |- _ => tryif constr_eq A B then fail else
      (destruct A as (r1 & E1 & W1 & L1); destruct B as (r2 & E2 & W2 & L2)) end.
    rewrite E1, E2 in E. inversion E; subst. eexists. split; [reflexivity|]. bo0. cbn [items_body laid]. split; [pos|lays].
  Qed.

  Lemma cmpop_ok p v en q : ok cmpop_e [] p v en q -> exists o, v = VCmpOp o /\ co_pos o = pt_pos p /\ co_op o <> CoUndef /\ seg p q = cmpop_string (co_op o).
  Proof.
    intros H. act H E. ev E. unfold act_compare_op in E. inversion E; subst. clear E. eexists. split; [reflexivity|]. split; [reflexivity|]. cbn [co_op].
    apply mi_choice1 in M as [M|M]; [apply mi_lit in M; [rewrite M; now cbn|repeat constructor]|].
    apply mi_choice1 in M as [M|M]; [apply mi_lit in M; [rewrite M; now cbn|repeat constructor]|].
    apply mi_choice1 in M as [M|M]; [apply mi_lit in M; [rewrite M; now cbn|repeat constructor]|].
    apply mi_choice1 in M as [M|M]; [apply mi_lit in M; [rewrite M; now cbn|repeat constructor]|].
    apply mi_choice1 in M as [M|M]; [apply class_ascii in M as (c & -> & C); [|repeat constructor..]|].
    - unfold class_match in C. cbn [existsb] in C. rewrite xorb_false_r, !orb_false_r, orb_true_iff, !N.eqb_eq in C. destruct C as [->| ->]; now cbn.
    - apply mi_choice1 in M as [M|M]; [now apply mi_soft in M|now apply mi_choice0 in M].
  Qed.
  Lemma reop_ok p v en q : ok reop_e [] p v en q -> exists o, v = VReOp o /\ ro_pos o = pt_pos p /\ ro_op o <> RoUndef /\ seg p q = reop_string (ro_op o).
  Proof.
    intros H. act H E. ev E. unfold act_regexp_op in E. inversion E; subst. clear E. eexists. split; [reflexivity|]. split; [reflexivity|]. cbn [ro_op].
    apply mi_choice1 in M as [M|M]; [apply mi_lit in M; [rewrite M; now cbn|repeat constructor]|].
    apply mi_choice1 in M as [M|M]; [apply mi_lit in M; [rewrite M; now cbn|repeat constructor]|].
    apply mi_choice1 in M as [M|M]; [now apply mi_soft in M|now apply mi_choice0 in M].
  Qed.
  Lemma boolop_ok p v en q : ok boolop_e [] p v en q -> exists o, v = VBoolOp o /\ bo_pos o = pt_pos p /\ bo_ok false o /\ seg p q = boolop_word (bo_op o).
  Proof.
    intros H. act H E. ev E. unfold act_boolean_op in E. inversion E; subst. clear E. eexists. split; [reflexivity|]. split; [reflexivity|]. cbn [bo_ok bo_op].
    apply mi_choice1 in M as [M|M]; [apply mi_lit in M; [rewrite M; now cbn|repeat constructor]|].
    apply mi_choice1 in M as [M|M]; [apply mi_lit in M; [rewrite M; now cbn|repeat constructor]|].
    apply mi_choice1 in M as [M|M]; [apply mi_lit in M; [rewrite M; now cbn|repeat constructor]|].
    apply mi_choice1 in M as [M|M]; [apply mi_lit in M; [rewrite M; now cbn|repeat constructor]|].
    apply mi_choice1 in M as [M|M]; [now apply mi_soft in M|now apply mi_choice0 in M].
  Qed.
  Lemma r_compare p v en q : ok compareExpression_e [] p v en q -> Reach data p -> t_expr p v q.
  Proof.
    intros H R0. act H E. one H. ev E. unfold act_compare in E.
    match goal with A : t_rvalue p _ _, B : t_rvalue _ _ _ |- _ => tryif constr_eq A B then fail else
      (destruct A as (r1 & E1 & W1 & L1); destruct B as (r2 & E2 & W2 & L2)) end.
    match goal with A : Sound.ok _ _ _ _ cmpop_e _ _ _ _ _ |- _ => apply cmpop_ok in A as (o & -> & Ep & Eo & Et) end.
    rewrite E1, E2 in E. inversion E; subst. eexists. split; [reflexivity|]. bo0. cbn [items_body laid]. split; [pos|]. eapply laid_app; [exact L1|].
    rewrite Ep. eapply weak_l; [eapply laid_tok; [reach|eassumption|exact Et|lay]|lia].
  Qed.
  Lemma r_regexp p v en q : ok regexpExpression_e [] p v en q -> Reach data p -> t_expr p v q.
  Proof.
    intros H R0. act H E. one H. ev E. unfold act_regexp_expr in E.
    match goal with A : t_rvalue p _ _ |- _ => destruct A as (r1 & E1 & W1 & L1) end.
    match goal with A : Sound.ok _ _ _ _ reop_e _ _ _ _ _ |- _ => apply reop_ok in A as (o & -> & Ep & Eo & Et) end.
    match goal with A : Sound.ok _ _ _ _ (EChoice _) _ ?p1 ?k _ ?p2 |- _ =>
      assert (Z : exists r, as_strorre k = Some r /\ wf_strorre r /\ L p1 (items_strorre r) p2); [clear E|] end.
    { match goal with N : Sound.ok _ _ _ _ (EChoice _) _ _ _ _ _ |- _ => rename N into HN;
        apply oi_choice in HN as [(_ & en1 & HN)|HN]; [|apply oi_choice in HN as [(_ & en1 & HN)|HN]; [|now apply oi_choice0 in HN]] end.
      - apply ok_string in HN as (s & -> & Eq & C & Eu). eexists. split; [reflexivity|]. split; [exact C|]. cbn [items_strorre]. rewrite Eq.
        eapply laid_tok; [reach|eassumption|exact Eu|]. cbn. lia.
      - apply ok_regexp in HN as (r & -> & Eq & C & Eu). eexists. split; [reflexivity|]. split; [exact C|]. cbn [items_strorre]. unfold items_re. rewrite Eq.
        eapply laid_tok; [reach|eassumption|exact Eu|]. cbn. lia. }
    destruct Z as (r2 & E2 & W2 & L2).
    rewrite E1, E2 in E. inversion E; subst. eexists. split; [reflexivity|]. bo0. cbn [items_body laid]. split; [pos|]. eapply laid_app; [exact L1|].
    rewrite Ep. eapply weak_l; [eapply laid_tok; [reach|eassumption|exact Et|lay]|lia].
  Qed.
  Lemma r_rv p v en q : ok (EAct (ARvalue "rv") (ELab "rv" (ERef "rvalue"))) [] p v en q -> Reach data p -> t_expr p v q.
  Proof.
    intros H R0. act H E. one H. ev E. unfold act_rvalue in E.
    match goal with A : t_rvalue p _ _ |- _ => destruct A as (r1 & E1 & W1 & L1) end.
    rewrite E1 in E. inversion E; subst. eexists. split; [reflexivity|]. bo0. cbn [items_body laid]. split; [pos|]. lay.
  Qed.
  Lemma r_paren p v en q : ok paren_e [] p v en q -> Reach data p -> t_expr p v q.
  Proof.
    intros H R0. act H E. one H. ev E. unfold act_cond_expr in E.
    match goal with A : t_cond _ _ _ |- _ => destruct A as (c & -> & W & Lc) end.
    inversion E; subst. eexists. split; [reflexivity|]. split; [split; [reflexivity|exact W]|]. split; [reflexivity|]. cbn [items_body].
    eapply laid_tok; [reach|eassumption|eassumption|lay].
  Qed.
  Lemma r_neg p v en q : ok negativeExpression_e [] p v en q -> Reach data p -> t_expr p v q.
  Proof.
    intros H R0. apply oi_choice in H as [(_ & en1 & H)|H].
    - act H E. one H. ev E. unfold act_cond_expr in E. match goal with A : t_cond _ _ _ |- _ => destruct A as (c & -> & W & Lc) end.
      inversion E; subst. eexists. split; [reflexivity|]. split; [split; [reflexivity|exact W]|]. split; [reflexivity|]. cbn [items_body].
      eapply laid_tok; [exact R0|eassumption|eassumption|lay].
    - apply oi_choice in H as [(_ & en1 & H)|H]; [|now apply oi_choice0 in H]. act H E. one H. ev E. unfold act_neg_selector in E.
      match goal with A : Sound.ok _ _ _ _ selector_e _ _ _ _ _ |- _ => apply ok_selector in A as (s & -> & HA & HB) end.
      inversion E; subst. eexists. split; [reflexivity|]. split; [split; [reflexivity|exact HA]|]. split; [reflexivity|]. cbn [items_body].
      eapply laid_tok; [exact R0|eassumption|eassumption|lay].
  Qed.
  Lemma r_expression p v en q : ok expression_e [] p v en q -> Reach data p -> t_expr p v q.
  Proof.
    intros H R0. apply oi_choice in H as [(_ & en1 & H)|H]; [now apply r_paren in H|].
    do 5 (apply oi_choice in H as [(_ & en1 & H)|H]; [one H; exact H|]).
    apply oi_choice in H as [(_ & en1 & H)|H]; [now apply r_rv in H|now apply oi_choice0 in H].
  Qed.
  Lemma set_bo_wf e o : wf_cexpr true e -> bo_ok false o -> wf_cexpr false (set_bool_op e o).
  Proof. destruct e; cbn [wf_cexpr set_bool_op]; tauto. Qed.
  Lemma set_bo_items e o : wf_cexpr true e -> items_cexpr (set_bool_op e o) = items_bo o ++ items_body e.
  Proof. destruct e; cbn [wf_cexpr]; intros H; try contradiction; reflexivity. Qed.
  Lemma r_more_expr p v en q : ok more_expr_e [] p v en q -> Reach data p -> exists e, v_expr v = Some e /\ wf_cexpr false e /\ L p (items_cexpr e) q.
  Proof.
    intros H R0. act H E. one H. ev E. unfold act_expression in E. match goal with A : t_expr _ _ _ |- _ => destruct A as (e & -> & W & _ & Le) end.
    match goal with A : Sound.ok _ _ _ _ boolop_e _ _ _ _ _ |- _ => apply boolop_ok in A as (o & -> & Ep & Eo & Et) end.
    inversion E; subst. eexists. split; [reflexivity|]. split; [now apply set_bo_wf|]. rewrite set_bo_items by exact W.
    assert (Eb : items_bo o = [ITok (bo_pos o) (boolop_word (bo_op o))]) by (unfold items_bo; destruct Eo; now destruct (bo_op o)).
    rewrite Eb, Ep. cbn [app]. eapply weak_l; [eapply laid_tok; [reach|eassumption|exact Et|lay]|lia].
  Qed.
  Lemma r_condition p v en q : ok condition_e [] p v en q -> Reach data p -> t_cond p v q.
  Proof.
    intros H R0. act H E. one H. ev E. unfold act_condition in E. match goal with A : t_expr _ _ _ |- _ => destruct A as (e & -> & W & Eb & Le) end.
    match goal with N : Sound.okt _ _ _ _ _ _ _ _ |- _ => eapply (okt_laid v_expr (wf_cexpr false) items_cexpr) in N as (xs & E1 & E2 & E3); [|exact r_more_expr|reach] end.
    cbn [iface_slice app exprs_loop] in E. rewrite (exprs_some _ _ E1) in E. inversion E; subst. eexists. split; [reflexivity|]. split; [split; assumption|].
    cbn [items_cond flat_map]. rewrite Eb. change (items_bo no_op) with [IPos zero_pos]. cbn [app laid]. split; [now left|]. eapply laid_app; [exact Le|exact E3].
  Qed.

  (** ** Blocks *)
  Lemma bop_val p v q : t_bop p v q -> exists x, as_bop v = Some x /\ wf_bop x /\ L p (items_bop x) q.
  Proof.
    intros [(i & es & e & -> & W & Lx)|(x & -> & W & Lx & _)]; eexists; (split; [reflexivity|]); (split; [exact W|exact Lx]).
  Qed.
  Lemma r_block_bop p v en q : ok block_bop_e [] p v en q -> Reach data p -> exists x, as_bop v = Some x /\ wf_bop x /\ L p (items_bop x) q.
  Proof.
    intros H R0. act H E. one H. ev E. unfold act_bop_comment in E.
    match goal with A : t_bop _ _ _ |- _ => destruct A as [([p' c l c' f] & es & e & -> & W & Lx)|([p' n l c f] & -> & W & Lx & _)] end; inversion E; subst; eexists; (split; [reflexivity|]).
    - destruct W as ((W1 & W2 & W3 & W4) & W5 & W6). split; [|cbn [items_bop] in Lx |- *; lay].
      cbn [wf_bop wf_if]. split; [split; [exact W1|split; [now apply gap_block|split; assumption]]|split; assumption].
    - destruct W as (W1 & W2 & W3 & W4). split; [|cbn [items_bop items_plugin] in Lx |- *; lay].
      cbn [wf_bop wf_plugin]. split; [exact W1|split; [now apply gap_block|split; assumption]].
  Qed.
  Lemma bops_val l xs : all_some as_bop l = Some xs -> branch_or_plugins (VList l) = xs.
  Proof. unfold branch_or_plugins. cbn [iface_slice]. now intros ->. Qed.
  Ltac bops := match goal with N : Sound.okt _ _ _ _ _ _ _ _ |- _ =>
    eapply (okt_laid as_bop wf_bop items_bop) in N as (bs & B1 & B2 & B3); [apply bops_val in B1|exact r_block_bop|reach] end.
  Lemma r_if p v en q : ok ifCond_e [] p v en q -> Reach data p -> t_if p v q.
  Proof.
    intros H R0. act H E. one H. ev E. unfold act_if_block in E. bops.
    match goal with A : t_cond _ _ _ |- _ => destruct A as (c & -> & W & Lc) end. rewrite B1 in E. inversion E; subst.
    eexists. split; [reflexivity|]. split; [cbn [wf_if]; split; [exact W|]; split; [constructor|]; split; [now apply gap_block|exact B2]|].
    cbn [items_if]. eapply laid_tok; [exact R0|eassumption|eassumption|]. lays.
  Qed.
  Lemma r_elseif p v en q : ok elseIf_e [] p v en q -> Reach data p -> t_elseif p v q.
  Proof.
    intros H R0. act H E. one H. ev E. unfold act_if_block in E. bops.
    match goal with A : t_cond _ _ _ |- _ => destruct A as (c & -> & W & Lc) end. rewrite B1 in E. inversion E; subst.
    eexists. split; [reflexivity|]. split; [cbn [wf_if]; split; [exact W|]; split; [constructor|]; split; [now apply gap_block|exact B2]|].
    cbn [items_elseif]. eapply laid_tok; [exact R0|eassumption|eassumption|]. lays.
  Qed.
  Lemma r_else p v en q : ok elseCond_e [] p v en q -> Reach data p -> t_else p v q.
  Proof.
    intros H R0. act H E. one H. ev E. unfold act_else_block in E. bops.
    rewrite B1 in E. inversion E; subst.
    eexists _, _. split; [reflexivity|]. split; [now apply gap_block|]. split; [exact B2|].
    eapply laid_tok; [exact R0|eassumption|eassumption|]. lay.
  Qed.
  Lemma r_more_elseif p v en q : ok more_elseif_e [] p v en q -> Reach data p -> exists x, v_elseif v = Some x /\ wf_if x /\ L p (items_elseif x) q.
  Proof.
    intros H R0. act H E. one H. ev E. unfold act_else_if_comment in E.
    match goal with A : t_elseif _ _ _ |- _ => destruct A as ([p' c l c' f] & -> & W & Lx) end. inversion E; subst. eexists. split; [reflexivity|].
    destruct W as (W1 & W2 & W3 & W4). split; [|cbn [items_elseif] in Lx |- *; lay].
    cbn [wf_if]. split; [exact W1|split; [now apply gap_block|split; assumption]].
  Qed.
  Lemma reach_zero p : Reach data p -> is_zero (pt_pos p) = false.
  Proof.
    intros R. apply reach_true_pos in R. unfold is_zero. destruct R as (_ & k & l & m & _ & Hl & _). rewrite Hl. reflexivity.
  Qed.
  Lemma r_else_opt p v q : (exists en, ok else_e [] p v en q) \/ (v = VNil /\ q = p) -> Reach data p ->
    exists e, (v = VElse e \/ v = VNil /\ e = zero_else) /\ wf_else e /\ L p (items_else e) q.
  Proof.
    intros [(en & H)|[-> ->]] R0.
    - act H E. one H. ev E. unfold act_else_comment in E.
      match goal with A : t_else _ _ _ |- _ => destruct A as (l & f & -> & Wf & Wl & Lx) end. inversion E; subst. eexists. split; [left; reflexivity|].
      assert (Z := reach_zero _ (r_step _ _ R0 S0)).
      split; [|cbn [items_else]; rewrite Z; lay].
      cbn [wf_else]. split; [now apply gap_block|]. split; [exact Wf|]. split; [exact Wl|]. intros X. rewrite X in Z. discriminate Z.
    - exists zero_else. split; [auto|]. split; [cbn; repeat split; constructor|]. cbn. auto.
  Qed.
  Lemma r_branch p v en q : ok branch_e [] p v en q -> Reach data p -> t_branch p v q.
  Proof.
    intros H R0. act H E. one H. ev E. unfold act_branch in E.
    match goal with A : t_if _ _ _ |- _ => destruct A as ([p' c l c' f] & -> & (W1 & W2 & W3 & W4) & Lx) end.
    match goal with N : Sound.okt _ _ _ _ _ _ _ _ |- _ => eapply (okt_laid v_elseif wf_if items_elseif) in N as (xs & E1 & E2 & E3); [|exact r_more_elseif|reach] end.
    match goal with A : _ \/ _ |- _ => apply r_else_opt in A as (e & Ee & We & Le); [|reach] end.
    cbn [iface_slice] in E. rewrite (else_ifs_some _ _ E1) in E.
    match type of E with context [match ?m with Some _ => _ | None => _ end] => replace m with (Some e) in E by (destruct Ee as [-> |[-> ->]]; reflexivity) end.
    inversion E; subst. eexists _, _, _. split; [reflexivity|]. split.
    - cbn [wf_bop]. split; [split; [exact W1|split; [now apply gap_block|split; assumption]]|split; assumption].
    - cbn [items_bop]. eapply weak_l; [|eassumption]. eapply laid_app; [exact Lx|]. eapply laid_app; [exact E3|exact Le].
  Qed.
  Lemma r_bop p v en q : ok branchOrPlugin_e [] p v en q -> Reach data p -> t_bop p v q.
  Proof.
    intros H R0. apply oi_choice in H as [(_ & en1 & H)|H]; [one H; now left|].
    apply oi_choice in H as [(_ & en1 & H)|H]; [one H; now right|now apply oi_choice0 in H].
  Qed.

  (** ** Sections *)
  Lemma ptype_ok p v en q : ok ptype_e [] p v en q -> exists t, v = VPType t /\ t <> PTUndef /\ seg p q = ptype_string t.
  Proof.
    intros H. do 3 (apply oi_choice in H as [(_ & en1 & H)|H];
      [act H E; ev E; inversion E; subst; eexists; (split; [reflexivity|]); split; [discriminate|]; apply mi_lit in M; [exact M|repeat constructor]|]).
    apply oi_choice in H as [(_ & en1 & H)|H]; [now apply oi_and in H as (X & _)|now apply oi_choice0 in H].
  Qed.
  Lemma r_sec_bop p v en q : ok (EAct (ARet "bop") (ELab "bop" (ERef "branchOrPlugin"))) [] p v en q -> Reach data p -> exists x, as_bop v = Some x /\ wf_bop x /\ L p (items_bop x) q.
  Proof. intros H R0. act H E. one H. ev E. inversion E; subst. apply bop_val. assumption. Qed.
  Lemma close_ok c m en p v en' q : ok (close c (soft m)) en p v en' q -> Forall (fun x => x < 128)%N (b c) -> seg p q = b c.
  Proof.
    intros H F. apply oi_choice in H as [(_ & en1 & H)|H]; [apply oi_lit in H as (_ & _ & H); now apply lit_ascii in H|].
    apply oi_choice in H as [(_ & en1 & H)|H]; [now apply oi_and in H as (X & _)|now apply oi_choice0 in H].
  Qed.
  Lemma r_section p v en q : ok pluginSection_e [] p v en q -> Reach data p -> t_section p v q.
  Proof.
    intros H R0. act H E. one H. ev E. unfold act_plugin_section in E.
    match goal with A : Sound.ok _ _ _ _ ptype_e _ _ _ _ _ |- _ => apply ptype_ok in A as (t & -> & Ht & Et) end.
    match goal with N : Sound.okt _ _ _ _ _ _ _ _ |- _ => eapply (okt_laid as_bop wf_bop items_bop) in N as (bs & B1 & B2 & B3); [|exact r_sec_bop|reach] end.
    cbn [iface_slice] in E. rewrite B1 in E. inversion E; subst. eexists. split; [reflexivity|]. split; [exact Ht|]. split.
    - split; [reflexivity|]. split; [constructor|]. split; [now apply gap_block|exact B2].
    - split; [cbn [items_section ps_pos ps_type ps_bops]; eapply laid_tok; [exact R0|eassumption|exact Et|lay]|]. split; [reflexivity|]. cbn [ps_type].
      match type of Et with seg _ ?u = _ => match goal with A : Sound.ok _ _ _ _ (close _ _) _ ?y _ _ ?z |- _ => apply close_ok in A; [|repeat constructor];
        assert (St : Steps u y) by (repeat (first [eassumption|eapply steps_trans; [eassumption|]])); exists (seg u y); rewrite <- Et, <- A;
        rewrite (seg_app p u) by (first [eassumption|eapply steps_trans; eassumption]); f_equal; apply seg_app; assumption end end.
  Qed.
  Lemma reach_slice p q : Reach data p -> Steps p q -> slice data (off p) (off q) = seg p q.
  Proof. intros R S1. unfold slice, seg. now rewrite (reach_rest _ _ R). Qed.
  (** sections with the gap before each *)
  Lemma r_next p v en q : ok next_section_e [] p v en q -> Reach data p -> exists s, v = VSection s /\ ps_type s <> PTUndef /\ wf_section (ps_type s) s /\
    forall ss hi, covered data (off q) ss hi -> covered data (off p) (s :: ss) hi.
  Proof.
    intros H R0. act H E. one H. ev E. unfold act_config_section in E.
    match goal with A : t_section _ _ _ |- _ => destruct A as (s & -> & Ht & (W1 & W2 & W3 & W4) & Ls & Ep & x' & Ex) end. inversion E; subst.
    eexists. split; [reflexivity|]. split; [exact Ht|]. split.
    - split; [reflexivity|]. cbn. split; [now apply gap_block|split; assumption].
    - intros ss hi C. match type of Ex with seg ?a ?c = _ => apply cov_next with (mid := off c); cbn [ps_pos ps_type set_ps_com]; rewrite ?Ep; auto end.
      + rewrite reach_slice; assumption.
      + rewrite reach_slice; [eauto|reach|assumption].
  Qed.
  Lemma sections_some l p q : okt next_section_e p l q -> Reach data p -> exists ss, all_some v_section l = Some ss /\
    All (fun s => ps_type s <> PTUndef /\ wf_section (ps_type s) s) ss /\ forall hi, off q <= hi -> gap_text (slice data (off q) hi) -> covered data (off p) ss hi.
  Proof.
    revert p. induction l as [|v l IH]; intros p H R; inversion H; subst.
    - exists []. cbn. split; [reflexivity|]. split; [exact I|]. intros hi A B. now constructor.
    - match goal with A : Sound.ok _ _ _ _ _ _ p _ _ ?q1, B : Sound.okt _ _ _ _ _ _ l _ |- _ =>
        assert (R1 := r_step _ _ R (ok_steps _ _ _ _ _ _ _ _ _ _ A)); destruct (r_next _ _ _ _ A R) as (s & -> & X1 & X2 & X3); destruct (IH _ B R1) as (ss & Y1 & Y2 & Y3) end.
      exists (s :: ss). cbn [all_some v_section]. rewrite Y1. split; [reflexivity|]. split; [split; auto|]. intros. apply X3. auto.
  Qed.
  Lemma config_loop_types com vs : forall (first : bool) ss i f o, all_some v_section vs = Some ss -> All (fun s => ps_type s <> PTUndef /\ wf_section (ps_type s) s) ss ->
    let ss' := if first then map_first (fun s => set_ps_com s com) ss else ss in
    config_loop com first vs i f o = inl (i ++ of_type PTInput ss', f ++ of_type PTFilter ss', o ++ of_type PTOutput ss').
  Proof.
    induction vs as [|v vs IH]; intros first ss i f o E W.
    - inversion E; subst. destruct first; cbn; now rewrite !app_nil_r.
    - cbn [all_some] in E. destruct v; try discriminate E. cbn [v_section] in E. destruct (all_some v_section vs) as [ss0|] eqn:E0; [|discriminate]. inversion E; subst. destruct W as [[W1 _] W2].
      cbn [config_loop map_first]. specialize (fun i f o => IH false _ i f o eq_refl W2). cbn iota in IH. cbv zeta.
      assert (Ht : ps_type (if first then set_ps_com s com else s) = ps_type s) by now destruct first.
      rewrite Ht. replace (if first then set_ps_com s com :: ss0 else s :: ss0) with ((if first then set_ps_com s com else s) :: ss0) by now destruct first.
      unfold of_type in *. cbn [filter]. 
      assert (Hi : forall t, is_type t (if first then set_ps_com s com else s) = is_type t s) by (intros; unfold is_type; now rewrite Ht).
      rewrite !Hi. assert (Hs : forall t, is_type t s = match ps_type s, t with PTInput, PTInput | PTFilter, PTFilter | PTOutput, PTOutput | PTUndef, PTUndef => true | _, _ => false end) by reflexivity.
      rewrite !Hs.
      destruct (ps_type s); try congruence; rewrite IH, <- ?app_assoc; reflexivity.
  Qed.
  Lemma of_type_wf t ss : All (fun s => ps_type s <> PTUndef /\ wf_section (ps_type s) s) ss -> All (wf_section t) (of_type t ss).
  Proof.
    induction ss as [|s ss IH]; cbn; [auto|]. intros [[_ W] H]. unfold is_type at 1.
    assert (forall x, x = ps_type s -> (match x, t with PTInput, PTInput | PTFilter, PTFilter | PTOutput, PTOutput | PTUndef, PTUndef => true | _, _ => false end) = true -> t = ps_type s) by (intros [] <-; destruct t; congruence).
    destruct (match ps_type s, t with PTInput, PTInput | PTFilter, PTFilter | PTOutput, PTOutput | PTUndef, PTUndef => true | _, _ => false end) eqn:E; [|auto].
    cbn. rewrite (H0 _ eq_refl E). split; [exact W|]. rewrite <- (H0 _ eq_refl E). auto.
  Qed.
  Lemma r_config p v en q : ok config_e [] p v en q -> Reach data p -> t_config p v q.
  Proof.
    intros H R0. act H E. one H. ev E. unfold act_config in E.
    match goal with A : t_section _ _ _ |- _ => destruct A as (s & -> & Ht & W & Ls & Ep & x' & Ex) end.
    match goal with N : Sound.okt _ _ _ _ _ _ _ _ |- _ => apply sections_some in N as (ss & E1 & E2 & E3); [|reach] end.
    cbn [iface_slice app] in E.
    match type of E with context [config_loop ?c _ (_ :: ?vs)] => assert (C := config_loop_types c (VSection s :: vs) true (s :: ss) [] [] []) end.
    cbn [all_some v_section] in C. rewrite E1 in C. specialize (C eq_refl (conj (conj Ht W) E2)). cbn zeta in C. cbn [app map_first] in C. rewrite C in E.
    inversion E; subst. clear E C.
    match goal with |- context [set_ps_com s ?c] => set (s' := set_ps_com s c);
      assert (W' : ps_type s' <> PTUndef /\ wf_section (ps_type s') s') end.
    { split; [exact Ht|]. destruct W as (X1 & X2 & X3 & X4). split; [reflexivity|]. split; [now apply gap_block|]. split; assumption. }
    eexists _, (s' :: ss). split; [reflexivity|]. split.
    { split; [exact (of_type_wf PTInput (s' :: ss) (conj W' E2))|]. split; [exact (of_type_wf PTFilter (s' :: ss) (conj W' E2))|].
      split; [exact (of_type_wf PTOutput (s' :: ss) (conj W' E2))|]. split; [now apply gap_block|].
      intros X1 X2 X3. exfalso. destruct W' as [W' _]. cbn [cf_input cf_filter cf_output] in X1, X2, X3. unfold of_type in X1, X2, X3. cbn [filter] in X1, X2, X3. unfold is_type in X1, X2, X3. fold s' in X1, X2, X3.
      destruct (ps_type s'); [discriminate X1|discriminate X2|discriminate X3|congruence]. }
    split; [|repeat split; reflexivity].
    match type of Ex with seg ?a ?c = _ => apply cov_next with (mid := off c); unfold s'; cbn [ps_pos ps_type set_ps_com]; rewrite ?Ep; auto end.
    - rewrite reach_slice; [assumption|reach|assumption].
    - rewrite reach_slice; [eauto|reach|assumption].
    - apply E3; [assumption|]. rewrite reach_slice; [assumption|reach|assumption].
  Qed.
  Lemma r_init p v en q : ok init_e [] p v en q -> Reach data p -> t_config p v q.
  Proof.
    intros H R0. act H E. one H. ev E. unfold act_ret_config in E.
    match goal with A : Sound.ok _ _ _ _ (EChoice _) _ _ _ _ _ |- _ => rename A into HC end.
    apply oi_choice in HC as [(_ & en1 & HC)|HC].
    - act HC E'. one HC. ev E'. inversion E'; subst. match goal with A : t_config _ _ _ |- _ => destruct A as (c & ss & -> & W & C & Z) end.
      inversion E; subst. eexists _, ss. split; [reflexivity|]. split; [exact W|]. split; [exact C|exact Z].
    - apply oi_choice in HC as [(_ & en1 & HC)|HC]; [|now apply oi_choice0 in HC]. act HC E'. one HC. ev E'. inversion E'; subst. inversion E; subst.
      eexists _, []. split; [reflexivity|]. split; [repeat split; constructor|]. split; [|repeat split].
      constructor; [assumption|]. rewrite reach_slice; assumption.
  Qed.

  Lemma rules_inv n e p v en q : find_rule n g = Some e -> ok e [] p v en q -> Reach data p -> T n p v q.
  Proof.
    intros F H R. rewrite rules_are_generated in F. unfold rules in F. cbn [find_rule] in F.
    repeat match type of F with (if String.eqb ?k n then _ else _) = _ =>
      destruct (String.eqb_spec k n) as [<-|]; [inversion F; subst; clear F;
        cbv [T invs find_inv String.eqb Ascii.eqb Bool.eqb];
        first [now apply r_init in H | now apply r_config in H | now apply r_section in H | now apply r_bop in H | now apply r_plugin in H | now apply r_attribute in H
              | now apply r_value in H | now apply r_array in H | now apply r_hash in H | now apply r_hentries in H | now apply r_hentry in H | now apply r_branch in H
              | now apply r_if in H | now apply r_elseif in H | now apply r_else in H | now apply r_condition in H | now apply r_expression in H | now apply r_neg in H
              | now apply r_in in H | now apply r_not_in in H | now apply r_rvalue in H | now apply r_compare in H | now apply r_regexp in H]|] end.
    discriminate F.
  Qed.
  Theorem peg_tree e p v en q : find_rule "init" g = Some e -> peg ign g e [] p (POk v en q) -> Reach data p -> t_config p v q.
  Proof.
    intros F H R. assert (Hg : grammar_lits_ok g = true) by exact gen_lits_ok.
    apply (rules_inv "init" e p v en q F); [|exact R]. eapply peg_ok; eauto using rules_inv. eapply rule_lits; eauto.
  Qed.
End Rules.
