(** The lexical rules: what their values are. *)
From Coq Require Import List NArith ZArith Bool String Arith Lia.
From Verif Require Import Bytes Utf8 F64 Ast Peg Actions Engine Parser AstPrint EscapeFacts QuoteFacts PosFacts Run EngineFacts Matches PegSem
  LexFacts Tree Sound Rules.
Import ListNotations.

(** ** Comments *)
Lemma trim_left_in cut s c : In c (trim_left cut s) -> In c s.
Proof. induction s as [|d s IH]; cbn; [auto|]. destruct (mem d cut); cbn; tauto. Qed.
Lemma trim_in cut s c : In c (trim cut s) -> In c s.
Proof. unfold trim, trim_right. rewrite <- in_rev. intros H. apply trim_left_in in H. rewrite <- in_rev in H. now apply trim_left_in in H. Qed.
Lemma trim_left_head cut s c t : trim_left cut s = c :: t -> mem c cut = false.
Proof. induction s as [|d s IH]; cbn; [discriminate|]. destruct (mem d cut) eqn:E; [auto|]. intros H. inversion H; subst. exact E. Qed.
Lemma trim_left_suffix cut s : exists x, s = x ++ trim_left cut s.
Proof. induction s as [|d s [x IH]]; cbn; [now exists []|]. destruct (mem d cut); [exists (d :: x); cbn; congruence|now exists []]. Qed.
Lemma trim_right_last cut s c t : trim_right cut s = t ++ [c] -> mem c cut = false.
Proof.
  unfold trim_right. intros H. assert (E : trim_left cut (rev s) = c :: rev t) by (rewrite <- (rev_involutive (trim_left _ _)), H, rev_app_distr; reflexivity).
  now apply trim_left_head in E.
Qed.
Lemma trim_right_prefix cut s : exists x, s = trim_right cut s ++ x.
Proof.
  unfold trim_right. destruct (trim_left_suffix cut (rev s)) as (x & E). exists (rev x).
  rewrite <- rev_app_distr, <- E. now rewrite rev_involutive.
Qed.
Lemma trim_head cut s c t : trim cut s = c :: t -> mem c cut = false.
Proof.
  unfold trim. intros H. destruct (trim_right_prefix cut (trim_left cut s)) as (x & E). rewrite H in E. cbn in E.
  now apply trim_left_head in E.
Qed.
Lemma trim_last cut s c t : trim cut s = t ++ [c] -> mem c cut = false.
Proof. unfold trim. apply trim_right_last. Qed.

Lemma split_no sep s l : In l (split sep s) -> ~ In sep l.
Proof.
  revert l. induction s as [|c s IH]; cbn; intros l.
  - intros [<-|[]] [].
  - destruct (N.eqb_spec c sep) as [->|H].
    + intros [<-|K]; [intros []|auto].
    + destruct (split sep s) as [|x ls]; [intros [<-|[]] [E|[]]; congruence|].
      intros [<-|K]; [|apply IH; now right]. intros [E|E]; [congruence|]. apply (IH x); [now left|exact E].
Qed.
Lemma split_in sep s l c : In l (split sep s) -> In c l -> In c s.
Proof.
  revert l. induction s as [|d s IH]; cbn; intros l.
  - intros [<-|[]] [].
  - destruct (N.eqb_spec d sep) as [->|H].
    + intros [<-|K] I; [destruct I|right; eauto].
    + destruct (split sep s) as [|x ls]; [intros [<-|[]] [E|[]]; auto|].
      intros [<-|K] I; [|right; eapply IH; [right; exact K|exact I]]. destruct I as [E|E]; [auto|]. right. eapply IH; [now left|exact E].
Qed.
Lemma after_byte_in h l t c : after_byte h l = Some t -> In c t -> In c l.
Proof. induction l as [|d l IH]; cbn; [discriminate|]. destruct (d =? h)%N; [intros E; inversion E; subst; auto|auto]. Qed.
Lemma comment_lines_ok f s ls : (forall l c, In l ls -> In c l -> c <> 13%N /\ c <> 10%N) -> com_ok (comment_lines f s ls).
Proof.
  revert f s. induction ls as [|l ls IH]; intros f s H; cbn; [constructor|].
  assert (H' : forall l' c, In l' ls -> In c l' -> c <> 13%N /\ c <> 10%N) by (intros; eapply H; [right|]; eauto).
  destruct (after_byte HASH l) as [t|] eqn:E; [|now apply IH]. constructor; [|now apply IH].
  unfold comment_ok. cbn [c_text]. split; [|split].
  - apply Forall_forall. intros c I. apply trim_in in I. eapply H; [now left|]. eapply after_byte_in; eauto.
  - intros x K. apply trim_head in K. discriminate K.
  - intros x K. apply trim_last in K. discriminate K.
Qed.
Lemma act_comment_ok ign t v : act_comment ign t = RVal v -> exists l, v = VComments l /\ com_ok l.
Proof.
  unfold act_comment. destruct ign; intros E; inversion E; subst; [exists []; split; [reflexivity|constructor]|].
  eexists. split; [reflexivity|]. apply comment_lines_ok. intros l c I J. split; intros ->.
  - pose proof (split_in _ _ _ _ I J) as K. apply trim_in in K. unfold replace_byte in K. apply in_flat_map in K as (d & _ & K).
    destruct (N.eqb d CR) eqn:N; cbn in K; [tauto|]. destruct K as [K|[]]. apply N.eqb_neq in N. now apply N.
  - now apply (split_no _ _ _ I).
Qed.

(** a gap: white space and comments *)
Definition gap_item (v : val) : Prop := v = VWs \/ exists l, v = VComments l /\ com_ok l.
Lemma set_before_ok c : comment_ok c -> comment_ok (set_before c). Proof. auto. Qed.
Lemma map_first_ok f l : (forall c, comment_ok c -> comment_ok (f c)) -> com_ok l -> com_ok (map_first f l).
Proof. intros H K. destruct K; cbn; constructor; auto. Qed.
Lemma map_last_ok f l : (forall c, comment_ok c -> comment_ok (f c)) -> com_ok l -> com_ok (map_last f l).
Proof. intros H K. unfold com_ok in *. induction K as [|c l Hc K IH]; cbn; [constructor|]. destruct l; constructor; auto. Qed.
Lemma comment_block_loop_ok x y vs acc : Forall gap_item vs -> com_ok acc -> com_ok (comment_block_loop x y vs acc).
Proof.
  intros H. revert acc. induction H as [|v vs [->|(l & -> & Hl)] H IH]; intros acc A; cbn; [exact A| |].
  - apply IH. destruct y; [now apply map_last_ok|exact A].
  - apply IH. apply Forall_app. split; [exact A|]. destruct (_ && _); [now apply map_first_ok|exact Hl].
Qed.
Definition gap_value (v : val) : Prop := exists l, v = VList l /\ Forall gap_item l.
Lemma gap_block v x y : gap_value v -> com_ok (comment_block v x y).
Proof. intros (l & -> & H). apply comment_block_loop_ok; [exact H|constructor]. Qed.

Section Lex.
  Variable ign : bool.
  Variable g : grammar.
  Variable data : bytes.
  Variable T : string -> point -> val -> point -> Prop.
  Notation ok := (ok ign g data T).
  Notation okt := (okt ign g data T).

  Lemma okt_forall e p l q (P : val -> Prop) : (forall p v en' q, ok e [] p v en' q -> P v) -> okt e p l q -> Forall P l.
  Proof. intros H K. induction K; constructor; eauto. Qed.

  Lemma ok_ws en p v en' q : ok ws_e en p v en' q -> v = VWs.
  Proof. intros H. apply oi_act in H as (v0 & _ & _ & _ & _ & _ & E). now inversion E. Qed.
  Lemma ok_gap en p v en' q : ok gap_e en p v en' q -> en' = en /\ gap_value v.
  Proof.
    intros H. apply oi_star in H as (-> & l & -> & H). split; [reflexivity|]. exists l. split; [reflexivity|].
    eapply okt_forall; [|exact H]. clear. intros p v en' q H. apply oi_choice in H as [(_ & en1 & H)|H].
    - apply oi_act in H as (v0 & _ & _ & _ & _ & _ & E). cbn in E. apply act_comment_ok in E. now right.
    - apply oi_choice in H as [(_ & en1 & H)|H]; [|now apply oi_choice0 in H]. apply ok_ws in H. now left.
  Qed.
  Lemma ok_gap_text en p v en' q : ok gap_e en p v en' q -> gap_text (seg p q).
  Proof.
    intros H. apply oi_star in H as (_ & l & _ & H). revert p H. induction l as [|x l IH]; intros p H; inversion H; subst.
    - rewrite seg_refl. constructor.
    - match goal with A : Sound.ok _ _ _ _ (EChoice _) _ p _ _ ?q1, B : Sound.okt _ _ _ _ _ _ l _ |- _ =>
        pose proof (ok_steps _ _ _ _ _ _ _ _ _ _ A) as S1; pose proof (proj2 (proj2 (ok_steps_all _ _ _ _)) _ _ _ _ B) as S2;
        rewrite (seg_app _ _ _ S1 S2); apply IH in B; apply gap_app; [|exact B]; clear B; rename A into HA;
        cut (matches g Rules.gap_e (seg p q1)); [exact (gap_matches _ _)|] end.
      match goal with |- matches _ _ ?t => rewrite <- (app_nil_r t); change (t ++ []) with (List.concat [t]) end. apply m_star. constructor; [|constructor].
      apply oi_choice in HA as [(_ & en1 & HA)|HA]; [|apply oi_choice in HA as [(_ & en1 & HA)|HA]; [|now apply oi_choice0 in HA]];
        apply oi_act in HA as (? & _ & _ & M & _).
      + eapply m_choice; [left; reflexivity|]. now constructor.
      + eapply m_choice; [right; left; reflexivity|]. now constructor.
  Qed.
  Lemma ok_gaps en p v en' q : ok gaps_e en p v en' q -> en' = en.
  Proof. intros H. apply oi_act in H as (v0 & H & _ & _ & _ & _ & E). now apply ok_gap in H as [-> _]. Qed.
End Lex.

(** ** Quoted texts *)
Lemma decode_ascii c t : (c < 128)%N -> decode_rune (c :: t) = (c, 1).
Proof. intros H. cbn [decode_rune]. now rewrite (proj2 (N.ltb_lt _ _) H). Qed.
Lemma rune_ascii s c : (c < 128)%N -> s <> [] -> fst (decode_rune s) = c -> exists t, s = c :: t.
Proof.
  destruct s as [|d s]; [congruence|]. intros Hc _ E. destruct (N.ltb_spec d 128) as [H|H].
  - rewrite (decode_ascii d s H) in E. cbn in E. subst. eauto.
  - exfalso. remember (d :: s) as s0 eqn:Hs0. assert (N0 : s0 <> []) by (subst; discriminate). pose proof (decode_width s0 N0) as W.
    set (u := firstn (snd (decode_rune s0)) s0).
    assert (D : decode_rune u = decode_rune s0) by (unfold u; apply decode_firstn; lia).
    assert (L : List.length u = snd (decode_rune s0)) by (unfold u; rewrite firstn_length; lia).
    assert (Nu : u <> []) by (intros K; apply (f_equal (@List.length N)) in K; cbn in K; lia).
    destruct (rune_bytes u Nu) as [(x & Ex & Lx & Fx)|[F Fx]]; [now rewrite D, L| |rewrite D in Fx; lia].
    assert (Hd : exists z, u = d :: z). { unfold u. destruct (snd (decode_rune s0)) eqn:Z; [lia|]. rewrite Hs0. cbn. eauto. }
    destruct Hd as (z & Hd). rewrite Ex in Hd. injection Hd as Hd _. lia.
Qed.
Lemma rune_ascii' s c : (c < 128)%N -> fst (decode_rune s) = c -> c <> RuneError -> exists t, s = c :: t.
Proof. intros H E N. destruct s as [|d s]; [cbn in E; subst; congruence|]. eapply rune_ascii; eauto. discriminate. Qed.
Lemma small_not_error c : (c < 128)%N -> c <> RuneError.
Proof. unfold RuneError. lia. Qed.
Lemma lit_end1 c p q : (c < 128)%N -> lit_end [c] p = Some q -> exists t, pt_rest p = c :: t /\ q = advance_pt p /\ pt_rest q = t /\ seg p q = [c].
Proof.
  intros Hc H. cbn in H. destruct (N.eqb_spec (fst (decode_rune (pt_rest p))) c) as [E|E]; [|discriminate]. inversion H; subst q.
  destruct (rune_ascii' _ _ Hc E (small_not_error _ Hc)) as (t & Ht). exists t. split; [exact Ht|]. split; [reflexivity|].
  assert (D : decode_rune (pt_rest p) = (c, 1)) by (rewrite Ht; now apply decode_ascii).
  split.
  - rewrite advance_rest, D, Ht. reflexivity.
  - unfold seg. rewrite advance_off, D. cbn. replace (p_off (pt_pos p) + 1 - p_off (pt_pos p)) with 1 by lia. now rewrite Ht.
Qed.
Lemma lit_end1_no c p : lit_end [c] p = None -> fst (decode_rune (pt_rest p)) <> c.
Proof. cbn. destruct (N.eqb_spec (fst (decode_rune (pt_rest p))) c); [discriminate|auto]. Qed.
Lemma lit_end_cons c rs p q : lit_end (c :: rs) p = Some q -> lit_end [c] p = Some (advance_pt p) /\ lit_end rs (advance_pt p) = Some q.
Proof. cbn. destruct (_ =? c)%N; [auto|discriminate]. Qed.

Section Quoted.
  Variable ign : bool.
  Variable g : grammar.
  Variable Q : N.
  Variables w w2 : string.
  Hypothesis HQ : (Q < 128)%N.
  Hypothesis HB : Q <> BSL.
  Definition qbody : expr := EChoice [ELit w2 [92; Q]%N; ESeq [ENot (ELit w [Q]); EAny]].

  Lemma literal_from_app q prev u s : Forall (fun c => c <> q) u -> u <> [] -> literal_from q prev (u ++ s) = literal_from q (last u prev) s.
  Proof.
    intros F. revert prev. induction F as [|c u Hc F IH]; intros prev N; [congruence|].
    cbn [app literal_from]. rewrite (proj2 (N.eqb_neq _ _) Hc). cbn [negb orb andb].
    destruct u as [|d u]; [reflexivity|]. rewrite IH by discriminate.
    change (last (c :: d :: u) prev) with (last (d :: u) prev). now rewrite (last_indep (d :: u) c prev) by discriminate.
  Qed.
  Lemma last_forall (P : N -> Prop) u d : Forall P u -> u <> [] -> P (last u d).
  Proof. intros F N. induction F as [|c u Hc F IH]; [congruence|]. destruct u; [exact Hc|]. apply IH. discriminate. Qed.

  Lemma quoted_sound p l p1 : pegt ign g qbody p (Some (l, p1)) -> (exists t, pt_rest p1 = Q :: t) ->
    Steps p p1 /\ forall prev, (prev <> BSL \/ forall t, pt_rest p <> Q :: t) -> literal_from Q prev (seg p p1) = true.
  Proof.
    revert p. induction l as [|v l IH]; intros p H C; apply pti in H.
    - destruct H as [-> H].
      split; [constructor|]. intros prev K. rewrite seg_refl. apply literal_from_nil. destruct K as [K|K]; [exact K|].
      destruct C as (t & C). now apply K in C.
    - destruct H as (en' & q & H1 & H2). destruct (IH _ H2 C) as [S IHp]. apply pi_choice in H1 as [(_ & en1 & H1)|[H1 H3]].
      + apply pi_lit in H1 as (_ & E & _). apply lit_end_cons in E as [E1 E2].
        apply lit_end1 in E1 as (t & R1 & _ & R2 & S1); [|lia]. apply lit_end1 in E2 as (t2 & R3 & -> & R4 & S2); [|exact HQ].
        assert (N1 : pt_rest p <> []) by (rewrite R1; discriminate). assert (N2 : pt_rest (advance_pt p) <> []) by (rewrite R3; discriminate).
        assert (St : Steps p (advance_pt (advance_pt p))) by (eapply steps_trans; apply steps_one; assumption).
        split; [eapply steps_trans; eauto|]. intros prev K. rewrite (seg_app _ _ _ St S).
        rewrite (seg_app p (advance_pt p)) by (apply steps_one; assumption). rewrite S1, S2. cbn [app literal_from].
        rewrite (proj2 (N.eqb_neq 92 Q)) by (intros X; apply HB; rewrite <- X; reflexivity). cbn [negb orb andb].
        replace (92 =? BSL)%N with true by reflexivity. rewrite orb_true_r. cbn [andb]. apply IHp. left. exact HB.
      + apply pi_choice in H3 as [(_ & en1 & H3)|[_ H3]]; [|now apply pi_choice0 in H3].
        apply pi_seq in H3 as (v1 & en2 & q1 & l1 & H3 & H4 & _). apply pi_not in H3 as (_ & -> & H3). apply pi_lit_no, lit_end1_no in H3.
        apply pi_seq in H4 as (v2 & en3 & q2 & l2 & H4 & H5 & _). apply pi_seq0 in H5 as (_ & _ & ->). apply pi_any in H4 as (_ & N & ->).
        apply pi_lit_no in H1. assert (St := steps_one _ N). split; [eapply steps_trans; eauto|]. intros prev _.
        rewrite (seg_app _ _ _ St S). destruct (seg_one _ N) as (U1 & U2 & U3).
        destruct (rune_bytes (seg p (advance_pt p)) U2) as [(c & E & L & F)|[F _]]; [now rewrite U3| |].
        * assert (Ec : fst (decode_rune (pt_rest p)) = c) by (rewrite U3 in F; exact F).
          rewrite literal_from_app by (rewrite E; try discriminate; repeat constructor; congruence). rewrite E. cbn [last].
          apply IHp. destruct (N.eq_dec c BSL) as [->|Nc]; [right|now left]. intros t Ht.
          cbn in H1. rewrite Ec in H1. replace (BSL =? 92)%N with true in H1 by reflexivity. rewrite Ht, decode_ascii in H1 by exact HQ.
          cbn in H1. rewrite N.eqb_refl in H1. discriminate H1.
        * rewrite literal_from_app; [|eapply Forall_impl; [|exact F]; cbn; intros; lia|exact U2].
          apply IHp. left. assert (K := last_forall _ _ prev F U2). cbn in K. unfold BSL. lia.
  Qed.
  Lemma literal_ok v : literal_from Q 0 v = true -> literal_value Q v.
  Proof. intros H. now apply is_literal_spec. Qed.

  (** an opening quote, the body and a closing quote *)
  Lemma quoted_lit_sound m en p v en' q :
    peg ign g (ESeq [ELit w [Q]; EStar qbody; EChoice [ELit w [Q]; EAndCode (PFatalError m)]]) en p (POk v en' q) ->
    en' = en /\ exists x, seg p q = [Q] ++ x ++ [Q] /\ literal_value Q x.
  Proof.
    intros H. apply pi_seq in H as (v1 & en1 & q1 & l1 & H1 & H & _). apply pi_seq in H as (v2 & en2 & q2 & l2 & H2 & H & _).
    apply pi_seq in H as (v3 & en3 & q3 & l3 & H3 & H & _). apply pi_seq0 in H as (_ & -> & ->).
    apply pi_lit in H1 as (-> & E1 & _). apply pi_star in H2 as (-> & l & _ & H2).
    apply pi_choice in H3 as [(-> & en4 & H3)|[_ H3]].
    2: { apply pi_choice in H3 as [(_ & en4 & H3)|[_ H3]]; [now apply pi_fatal in H3|now apply pi_choice0 in H3]. }
    apply pi_lit in H3 as (_ & E3 & _). apply lit_end1 in E1 as (t1 & R1 & -> & R2 & S1); [|exact HQ].
    apply lit_end1 in E3 as (t3 & R3 & -> & R4 & S3); [|exact HQ]. split; [reflexivity|].
    destruct (quoted_sound _ _ _ H2) as [St L]; [eauto|]. exists (seg (advance_pt p) q2). split.
    - assert (N1 : pt_rest p <> []) by (rewrite R1; discriminate). assert (N3 : pt_rest q2 <> []) by (rewrite R3; discriminate).
      rewrite (seg_app p (advance_pt p)) by (try (eapply steps_trans; [exact St|]); apply steps_one; assumption).
      rewrite (seg_app (advance_pt p) q2) by (try apply steps_one; assumption). now rewrite S1, S3.
    - apply literal_ok, L. left. discriminate.
  Qed.
End Quoted.

Lemma inner_quoted q x : inner ([q] ++ x ++ [q]) = Some x.
Proof.
  cbn [app inner]. destruct (x ++ [q]) as [|c y] eqn:E; [now destruct x|]. rewrite <- E. now rewrite removelast_last.
Qed.

Section Lex2.
  Variable ign : bool.
  Variable g : grammar.
  Variable data : bytes.
  Variable T : string -> point -> val -> point -> Prop.
  Notation ok := (ok ign g data T).

  Lemma peg_double en p v en' q : peg ign g double_e en p (POk v en' q) -> en' = en /\ exists x, seg p q = [DQ] ++ x ++ [DQ] /\ literal_value DQ x.
  Proof. intros H. apply pi_act in H as (v0 & H & _). eapply quoted_lit_sound in H; [exact H|now compute|intros X; discriminate X]. Qed.
  Lemma peg_single en p v en' q : peg ign g single_e en p (POk v en' q) -> en' = en /\ exists x, seg p q = [SQ] ++ x ++ [SQ] /\ literal_value SQ x.
  Proof. intros H. apply pi_act in H as (v0 & H & _). eapply quoted_lit_sound in H; [exact H|now compute|intros X; discriminate X]. Qed.

  Definition is_str (p : point) (v : val) (q : point) : Prop :=
    exists s, v = VAttr (AtStr s) /\ sa_pos s = pt_pos p /\ sa_name s = [] /\ sa_com s = [] /\
      str_ok (sa_type s) (sa_val s) /\ seg p q = sa_value_string s.
  Definition is_quoted (p : point) (v : val) (q : point) : Prop :=
    exists s, v = VAttr (AtStr s) /\ sa_pos s = pt_pos p /\ cstr_ok s /\ seg p q = sa_value_string s.
  Lemma quoted_str p v q : is_quoted p v q -> is_str p v q.
  Proof. intros (s & -> & A & (B & C & D & E) & F). exists s. auto 10. Qed.
  Lemma peg_string en p v en' q : peg ign g string_e en p (POk v en' q) -> is_quoted p v q.
  Proof.
    intros H. apply pi_act in H as (v0 & H & E). apply pi_lab in H as (-> & en1 & H). cbn in E. inversion E; subst v0; clear E.
    apply pi_choice in H as [(_ & en2 & H)|[_ H]].
    - apply pi_act in H as (v1 & H & E). apply pi_lab in H as (-> & en3 & H). apply peg_double in H as (_ & x & S & L).
      cbn [run_action] in E. unfold act_string in E. rewrite S, inner_quoted in E. inversion E; subst. eexists. split; [reflexivity|].
      split; [reflexivity|]. split; [|exact S]. split; [reflexivity|]. split; [exact L|]. split; [discriminate|reflexivity].
    - apply pi_choice in H as [(_ & en2 & H)|[_ H]]; [|now apply pi_choice0 in H].
      apply pi_act in H as (v1 & H & E). apply pi_lab in H as (-> & en3 & H). apply peg_single in H as (_ & x & S & L).
      cbn [run_action] in E. unfold act_string in E. rewrite S, inner_quoted in E. inversion E; subst. eexists. split; [reflexivity|].
      split; [reflexivity|]. split; [|exact S]. split; [reflexivity|]. split; [exact L|]. split; [discriminate|reflexivity].
  Qed.

  (** regular expressions *)
  Definition is_re (p : point) (v : val) (q : point) : Prop :=
    exists r, v = VRe r /\ re_pos r = pt_pos p /\ re_ok r /\ seg p q = regexp_string r.
  Lemma peg_regexp en p v en' q : peg ign g regexp_e en p (POk v en' q) -> is_re p v q.
  Proof.
    intros H. apply pi_act in H as (v0 & H & E).
    apply (quoted_lit_sound ign g SLASH) in H as (_ & x & S & L); [|now compute|intros X; discriminate X].
    cbn [run_action] in E. unfold act_regexp in E. rewrite S in E. rewrite inner_quoted in E. inversion E; subst.
    eexists. split; [reflexivity|]. split; [reflexivity|]. split; [exact L|]. exact S.
  Qed.

  (** words and numbers *)
  Lemma word_char_match c : class_match [95; 45]%N [(65, 90); (97, 122); (48, 57)]%N false c = true -> word_char c.
  Proof.
    unfold class_match. rewrite xorb_false_r. cbn [existsb]. rewrite !orb_false_r, !orb_true_iff, !andb_true_iff, !N.leb_le, !N.eqb_eq. cbn [fst snd].
    unfold word_char, bareword_char, bareword_start. lia.
  Qed.
  Lemma bare_char_match c : class_match [95]%N [(65, 90); (97, 122); (48, 57)]%N false c = true -> bareword_char c.
  Proof.
    unfold class_match. rewrite xorb_false_r. cbn [existsb]. rewrite !orb_false_r, !orb_true_iff, !andb_true_iff, !N.leb_le, !N.eqb_eq. cbn [fst snd].
    unfold bareword_char, bareword_start. lia.
  Qed.
  Lemma bare_start_match c : class_match [95]%N [(65, 90); (97, 122)]%N false c = true -> bareword_start c.
  Proof.
    unfold class_match. rewrite xorb_false_r. cbn [existsb]. rewrite !orb_false_r, !orb_true_iff, !andb_true_iff, !N.leb_le, !N.eqb_eq. cbn [fst snd].
    unfold bareword_start. lia.
  Qed.
  Lemma digit_match c : class_match [] [(48, 57)]%N false c = true -> digit c.
  Proof.
    unfold class_match. rewrite xorb_false_r. cbn [existsb]. rewrite !orb_false_r, !orb_false_l, !andb_true_iff, !N.leb_le. cbn [fst snd]. auto.
  Qed.
  Lemma class_all w cs rs l (P : N -> Prop) : (forall c, class_match cs rs false c = true -> P c) ->
    Forall (fun c => c < 128)%N cs -> Forall (fun x => snd x < 128)%N rs ->
    Forall (matches g (EClass w cs rs false)) l -> Forall P (List.concat l) /\ (l <> [] -> List.concat l <> []).
  Proof.
    intros H H1 H2 F. split.
    - apply Forall_concat. eapply Forall_impl; [|exact F]. cbn. intros t M. apply class_ascii in M as (c & -> & C); auto.
    - intros N. destruct F as [|t l M F]; [congruence|]. apply class_ascii in M as (c & -> & C); auto. discriminate.
  Qed.
  Lemma word_matches t : matches g (EPlus word_class) t -> word t.
  Proof.
    intros H. apply mi_plus in H as (l & N & H & ->). eapply class_all in H as [A B]; [split; [apply B; exact N|exact A]|exact word_char_match| |]; repeat constructor.
  Qed.
  Lemma bareword_matches t : matches g (ESeq [EClass "[_A-Za-z]" [95%N] [(65, 90); (97, 122)]%N false;
                                 EPlus (EClass "[_A-Za-z0-9]" [95%N] [(65, 90); (97, 122); (48, 57)]%N false)]) t -> bareword t.
  Proof.
    intros H. apply mi_seq in H as (t1 & t2 & -> & H1 & H & _). apply mi_seq in H as (t3 & t4 & -> & H2 & H & _). apply mi_nil in H. subst t4.
    apply class_ascii in H1 as (c & -> & C); [|repeat constructor..]. apply mi_plus in H2 as (l & N & H2 & ->).
    eapply class_all in H2 as [A B]; [|exact bare_char_match|repeat constructor|repeat constructor].
    exists c, (List.concat l). rewrite app_nil_r. split; [reflexivity|]. split; [auto|]. split; [now apply bare_start_match|exact A].
  Qed.
  Lemma number_matches t : matches g number_text_e t -> number_text t.
  Proof.
    intros H. apply mi_seq in H as (t1 & t2 & -> & H1 & H & _). apply mi_seq in H as (t3 & t4 & -> & H2 & H & _).
    apply mi_seq in H as (t5 & t6 & -> & H3 & H & _). apply mi_nil in H. subst t6. rewrite app_nil_r.
    apply mi_plus in H2 as (l & N & H2 & ->). eapply class_all in H2 as [A B]; [|exact digit_match|constructor|repeat constructor].
    exists t1, (List.concat l), t5. split; [reflexivity|]. split; [|split; [auto|split; [exact A|]]].
    - apply mi_opt in H1 as [H1| ->]; [right|now left]. apply mi_lit in H1; [exact H1|repeat constructor].
    - apply mi_opt in H3 as [H3| ->]; [right|now left]. apply mi_seq in H3 as (t6 & t7 & -> & H4 & H & _). apply mi_seq in H as (t8 & t9 & -> & H5 & H & _).
      apply mi_nil in H. subst t9. rewrite app_nil_r. apply mi_lit in H4; [|repeat constructor]. subst t6. exists t8. split; [reflexivity|].
      apply mi_star in H5 as (l' & H5 & ->). eapply class_all in H5 as [A' B']; [exact A'|exact digit_match|constructor|repeat constructor].
  Qed.

  Lemma ok_bareword en p v en' q : ok bareword_e en p v en' q -> is_str p v q.
  Proof.
    intros H. apply oi_act in H as (v0 & _ & _ & M & _ & _ & E). inversion E; subst. eexists. split; [reflexivity|].
    split; [reflexivity|]. split; [reflexivity|]. split; [reflexivity|]. split; [exact (bareword_matches _ M)|].
    unfold sa_value_string. cbn. now rewrite app_nil_r.
  Qed.
  Lemma ok_string en p v en' q : ok string_e en p v en' q -> is_quoted p v q.
  Proof.
    intros H. inversion H as [? ? ? ? ? ? ? ? K P M R S E | | | | | | | | | | | | | | | ]; subst. eapply peg_string. eapply peg_act; eauto.
  Qed.
  Lemma ok_regexp en p v en' q : ok regexp_e en p v en' q -> is_re p v q.
  Proof.
    intros H. inversion H as [? ? ? ? ? ? ? ? K P M R S E | | | | | | | | | | | | | | | ]; subst. eapply peg_regexp. eapply peg_act; eauto.
  Qed.
  Lemma ok_number en p v en' q : ok number_e en p v en' q -> exists n, v = VAttr (AtNum n) /\ na_pos n = zero_pos /\ na_name n = [] /\ na_com n = [] /\ num_ok (na_val n).
  Proof.
    intros H. apply oi_act in H as (v0 & _ & _ & M & _ & _ & E). cbn in E. unfold act_number in E. destruct (parse_float _) as [f|] eqn:F; [|discriminate].
    inversion E; subst. eexists. split; [reflexivity|]. cbn. repeat (split; [reflexivity|]). exists (seg p q). split; [exact (number_matches _ M)|exact F].
  Qed.
  (** names: the text is the name *)
  Definition is_name (p : point) (v : val) (q : point) : Prop :=
    exists s, v = VAttr (AtStr s) /\ sa_pos s = pt_pos p /\ seg p q = sa_value_string s /\ name_ok (sa_value_string s).
  Lemma ok_name1 en p v en' q : ok (EAct (AString Bareword) (EPlus word_class)) en p v en' q -> is_name p v q.
  Proof.
    intros H. apply oi_act in H as (v0 & _ & _ & M & _ & _ & E). inversion E; subst. eexists. split; [reflexivity|]. split; [reflexivity|].
    unfold sa_value_string. cbn. rewrite app_nil_r. split; [reflexivity|]. left. exact (word_matches _ M).
  Qed.
  Lemma ok_name2 en p v en' q : ok (EAct (ARet "value") (ELab "value" string_e)) en p v en' q -> is_name p v q.
  Proof.
    intros H. apply oi_act in H as (v0 & H & _ & _ & _ & _ & E).
    apply oi_lab in H as (-> & en2 & H). cbn in E. inversion E; subst. apply ok_string in H as (s & -> & Ep & (K1 & K2 & K3 & K4) & S).
    exists s. split; [reflexivity|]. split; [exact Ep|]. split; [exact S|]. right. unfold sa_value_string.
    destruct (sa_type s); cbn in K2; try tauto; eexists _, _; (split; [|split; [exact K2|reflexivity]]); cbn; auto.
  Qed.
  Lemma ok_name en p v en' q : ok name_e en p v en' q -> is_name p v q /\ en' = en.
  Proof.
    intros H. split; [|now apply ok_choice_env in H]. apply oi_choice in H as [(_ & en1 & H)|H]; [now apply ok_name1 in H|].
    apply oi_choice in H as [(_ & en1 & H)|H]; [now apply ok_name2 in H|now apply oi_choice0 in H].
  Qed.

  (** selectors *)
  Lemma selel_matches t : matches g (ESeq [lit "["; EPlus (EClass "[^][,]" [93; 91; 44]%N [] true);
                               EChoice [lit "]"; soft "expect closing square bracket"]]) t ->
    exists x, t = [91%N] ++ x ++ [93%N] /\ x <> [] /\ Forall (fun c => ~ In c [91; 93; 44]%N) x.
  Proof.
    intros H. apply mi_seq in H as (t1 & t2 & -> & H1 & H & _). apply mi_seq in H as (t3 & t4 & -> & H2 & H & _).
    apply mi_seq in H as (t5 & t6 & -> & H3 & H & _). apply mi_nil in H. subst t6. rewrite app_nil_r.
    apply mi_lit in H1; [|repeat constructor]. subst t1.
    apply mi_choice1 in H3 as [H3|H3]; [apply mi_lit in H3; [|repeat constructor]; subst t5|].
    2: { apply mi_choice1 in H3 as [H3|H3]; [now apply mi_soft in H3|now apply mi_choice0 in H3]. }
    apply mi_plus in H2 as (l & N & H2 & ->). exists (List.concat l). split; [reflexivity|]. split.
    - destruct H2 as [|t l M F]; [congruence|]. inversion M; subst. destruct t; [congruence|]. discriminate.
    - apply Forall_concat. eapply Forall_impl; [|exact H2]. cbn. intros t M. apply class_not in M; [|repeat constructor].
      eapply Forall_impl; [|exact M]. cbn. intros c. tauto.
  Qed.
  Lemma reach_at p q : Reach data p -> Steps p q -> at_text data (pt_pos p) (seg p q).
  Proof.
    intros R S. split; [now apply reach_true_pos|]. exists (firstn (p_off (pt_pos p)) data), (pt_rest q).
    destruct (steps_rest _ _ S) as [E L]. rewrite <- E, (reach_rest _ _ R), firstn_skipn. split; [reflexivity|].
    pose proof (reach_len _ _ R). rewrite firstn_length. lia.
  Qed.
  Lemma seg_len p q : Steps p q -> p_off (pt_pos p) + List.length (seg p q) = p_off (pt_pos q).
  Proof. intros S. destruct (steps_rest _ _ S) as [_ L]. pose proof (steps_off _ _ S). lia. Qed.
  Lemma laid_tok p q t l hi : Reach data p -> Steps p q -> seg p q = t -> laid data (p_off (pt_pos q)) l hi ->
    laid data (p_off (pt_pos p)) (ITok (pt_pos p) t :: l) hi.
  Proof.
    intros R S <- L. cbn. split; [lia|]. split; [now apply reach_at|]. now rewrite seg_len.
  Qed.
  Definition is_sel (p : point) (v : val) (q : point) : Prop :=
    exists s, v = VSel s /\ sel_ok s /\ laid data (p_off (pt_pos p)) (items_sel s) (p_off (pt_pos q)).
  Lemma ok_selels p l q : okt ign g data T selel_e p l q -> Reach data p ->
    exists els, all_some (fun v => match v with VSelEl s => Some s | _ => None end) l = Some els /\
      List.length els = List.length l /\ All selel_ok els /\
      laid data (p_off (pt_pos p)) (map (fun e => ITok (se_pos e) (selel_string e)) els) (p_off (pt_pos q)).
  Proof.
    revert p. induction l as [|v l IH]; intros p H R.
    - inversion H; subst. exists []. cbn. auto.
    - inversion H; subst. match goal with A : Sound.ok _ _ _ _ selel_e _ _ _ _ ?q1 |- _ => rename A into K; assert (S := ok_steps _ _ _ _ _ _ _ _ _ _ K); assert (R1 := steps_reach _ _ _ R S) end.
      match goal with A : Sound.okt _ _ _ _ _ ?q1 l _ |- _ => destruct (IH _ A R1) as (els & E1 & E2 & E3 & E4) end.
      apply oi_act in K as (v0 & _ & _ & M & _ & _ & E). apply selel_matches in M as (x & Sx & Nx & Fx). cbn in E. unfold act_selector_element in E.
      rewrite Sx in E. assert (I : inner ([91%N] ++ x ++ [93%N]) = Some x).
      { cbn [app inner]. destruct (x ++ [93%N]) as [|c y] eqn:Z; [now destruct x|]. rewrite <- Z. now rewrite removelast_last. }
      rewrite I in E. inversion E; subst. exists (SelEl (pt_pos p) x :: els). cbn [all_some]. rewrite E1. split; [reflexivity|]. split; [cbn; congruence|].
      split; [split; [split; assumption|exact E3]|]. cbn [map]. eapply laid_tok; eauto.
  Qed.
  Lemma ok_selector en p v en' q : ok selector_e en p v en' q -> is_sel p v q.
  Proof.
    intros H. apply oi_act in H as (v0 & H & _ & _ & R & S & E). apply oi_lab in H as (-> & en1 & H). apply oi_plus in H as (_ & x & l & -> & H).
    apply ok_selels in H as (els & E1 & E2 & E3 & E4); [|exact R]. cbn [run_action lookup bind] in E. cbn [String.eqb] in E. unfold act_selector in E.
    cbn [lookup String.eqb Ascii.eqb Bool.eqb iface_slice] in E. rewrite E1 in E. inversion E; subst. eexists. split; [reflexivity|]. split.
    - split; [|exact E3]. destruct els; [discriminate E2|discriminate].
    - cbn [items_sel sel_pos]. cbn [laid]. split; [right; now apply reach_true_pos|exact E4].
  Qed.
End Lex2.
