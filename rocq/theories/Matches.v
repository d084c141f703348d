(** The text consumed by an expression belongs to its language, and invariants
    of the values computed along a run. *)
From Coq Require Import List NArith Bool String Arith Lia.
From Verif Require Import Bytes Utf8 F64 Ast Peg Actions Engine Parser QuoteFacts PosFacts Run EngineFacts.
Import ListNotations.

(** ** Language of an expression, without order and greediness *)

Inductive lit_text : list N -> bytes -> Prop :=
| lt_nil : lit_text [] []
| lt_cons r rs u t : u <> [] -> decode_rune u = (r, List.length u) -> lit_text rs t -> lit_text (r :: rs) (u ++ t).

(** What a negative lookahead says about the text that follows it. *)
Definition guard (e : expr) (v : bytes) : Prop :=
  match e with
  | ENot (ELit _ [c]) => v <> [] -> fst (decode_rune v) <> c
  | _ => True
  end.

Inductive matches (g : grammar) : expr -> bytes -> Prop :=
| m_act a e t : matches g e t -> matches g (EAct a e) t
| m_lab l e t : matches g e t -> matches g (ELab l e) t
| m_opt_some e t : matches g e t -> matches g (EOpt e) t
| m_opt_none e : matches g (EOpt e) []
| m_and : matches g (EAndCode PInitParser) []
| m_state c : matches g (EStateCode c) []
| m_any t : t <> [] -> snd (decode_rune t) = List.length t -> matches g EAny t
| m_class want chars ranges inv t : t <> [] -> snd (decode_rune t) = List.length t ->
    class_match chars ranges inv (fst (decode_rune t)) = true -> matches g (EClass want chars ranges inv) t
| m_lit want rs t : lit_text rs t -> matches g (ELit want rs) t
| m_choice l e t : In e l -> matches g e t -> matches g (EChoice l) t
| m_seq l t : matches_seq g l t -> matches g (ESeq l) t
| m_not e : matches g (ENot e) []
| m_plus e l : l <> [] -> matches_all g e l -> matches g (EPlus e) (List.concat l)
| m_star e l : matches_all g e l -> matches g (EStar e) (List.concat l)
| m_ref n e t : find_rule n g = Some e -> matches g e t -> matches g (ERef n) t
with matches_seq (g : grammar) : list expr -> bytes -> Prop :=
| ms_nil : matches_seq g [] []
| ms_cons e l t u : matches g e t -> matches_seq g l u -> guard e (t ++ u) -> matches_seq g (e :: l) (t ++ u)
with matches_all (g : grammar) : expr -> list bytes -> Prop :=
| ma_nil e : matches_all g e []
| ma_cons e t l : matches g e t -> matches_all g e l -> matches_all g e (t :: l).

(** ** Segments of the input *)

Definition seg (p q : point) : bytes := firstn (p_off (pt_pos q) - p_off (pt_pos p)) (pt_rest p).

Lemma slice_seg p s : slice_from p s = seg p (s_pt s).
Proof. reflexivity. Qed.

Lemma decode_firstn s n : snd (decode_rune s) <= n -> n <> 0 -> decode_rune (firstn n s) = decode_rune s.
Proof.
  destruct s as [|c0 s1]; [now rewrite firstn_nil|]. intros H Hn.
  destruct n as [|n]; [congruence|]. cbn [firstn]. cbn [decode_rune] in *.
  repeat match goal with
  | |- context [if ?x then _ else _] => let F := fresh "F" in destruct x eqn:F
  end; try reflexivity.
  all: destruct s1 as [|c1 s1]; [rewrite ?firstn_nil; try reflexivity|].
  all: try (destruct n as [|n]; cbn [firstn];
    repeat match goal with
    | H : context [if ?x then _ else _] |- _ => destruct x eqn:?
    | H : context [match ?x with [] => _ | _ :: _ => _ end] |- _ => destruct x
    end; cbn [firstn] in *; try reflexivity; cbn [snd] in *; try lia).
  all: try (destruct n as [|n]; cbn [firstn] in *; try lia; try reflexivity).
  all: repeat match goal with
    | H : ?x = _ |- context [if ?x then _ else _] => rewrite H
    end; try reflexivity.
  all: try (destruct n as [|n]; cbn [firstn] in *; try lia; try reflexivity).
  all: repeat match goal with
    | |- context [match ?x with [] => _ | _ :: _ => _ end] => destruct x
    | H : ?x = _ |- context [if ?x then _ else _] => rewrite H
    end; try reflexivity.
Qed.

Lemma seg_refl p : seg p p = [].
Proof. unfold seg. now rewrite Nat.sub_diag. Qed.

Lemma steps_rest p q : Steps p q -> pt_rest p = seg p q ++ pt_rest q /\
  List.length (seg p q) = p_off (pt_pos q) - p_off (pt_pos p).
Proof.
  intros H. induction H as [|p q H IH Hn].
  - now rewrite seg_refl, Nat.sub_diag.
  - destruct IH as [E L]. pose proof (steps_off _ _ H) as O1. pose proof (decode_width _ Hn) as W.
    assert (E2 : seg p (advance_pt q) = seg p q ++ firstn (snd (decode_rune (pt_rest q))) (pt_rest q)).
    { unfold seg at 1. rewrite advance_off, E.
      replace (_ + _ - _) with (List.length (seg p q) + snd (decode_rune (pt_rest q))) by lia.
      now rewrite firstn_app_2. }
    rewrite E2. split.
    + rewrite advance_rest, <- app_assoc, firstn_skipn. exact E.
    + rewrite app_length, L, firstn_length, advance_off. lia.
Qed.
Lemma seg_app p q r : Steps p q -> Steps q r -> seg p r = seg p q ++ seg q r.
Proof.
  intros H1 H2. destruct (steps_rest _ _ H1) as [E1 L1], (steps_rest _ _ H2) as [E2 L2].
  pose proof (steps_off _ _ H1). pose proof (steps_off _ _ H2).
  unfold seg at 1. rewrite E1.
  replace (p_off (pt_pos r) - p_off (pt_pos p)) with (List.length (seg p q) + (p_off (pt_pos r) - p_off (pt_pos q))) by lia.
  rewrite firstn_app_2. reflexivity.
Qed.
Lemma seg_one p : pt_rest p <> [] ->
  seg p (advance_pt p) = firstn (snd (decode_rune (pt_rest p))) (pt_rest p) /\
  seg p (advance_pt p) <> [] /\
  decode_rune (seg p (advance_pt p)) = (fst (decode_rune (pt_rest p)), List.length (seg p (advance_pt p))).
Proof.
  intros H. pose proof (decode_width _ H) as W.
  assert (E : seg p (advance_pt p) = firstn (snd (decode_rune (pt_rest p))) (pt_rest p)).
  { unfold seg. rewrite advance_off. f_equal. lia. }
  split; [exact E|]. assert (L : List.length (seg p (advance_pt p)) = snd (decode_rune (pt_rest p))).
  { rewrite E, firstn_length. lia. }
  split; [intros N; rewrite N in L; cbn in L; lia|].
  rewrite L, E, decode_firstn by lia. now destruct (decode_rune (pt_rest p)).
Qed.
Lemma seg_head p q : Steps p q -> seg p q <> [] -> decode_rune (seg p q) = decode_rune (pt_rest p).
Proof.
  intros H N. apply steps_first in H as [->|[H1 H2]]; [now rewrite seg_refl in N|].
  apply steps_off in H2. rewrite advance_off in H2. pose proof (decode_width _ H1).
  unfold seg. apply decode_firstn; lia.
Qed.

(** ** Runs consume texts of the language *)
Section Match.
  Variable o : settings.
  Variable g : grammar.
  Variable data : bytes.
  Hypothesis Hg : grammar_lits_ok g = true.

  Lemma lit_matches rule want p rs en : forall s v en' s',
    forallb (fun r => negb (r =? RuneError)%N) rs = true ->
    lit_loop o rule want p rs en s = OOk v en' s' -> lit_text rs (seg (s_pt s) (s_pt s')) /\ Steps (s_pt s) (s_pt s').
  Proof.
    induction rs as [|r rs IH]; intros s v en' s' Hr H; cbn [lit_loop] in H.
    - injection H as _ _ <-. rewrite fail_at_pt, seg_refl. split; constructor.
    - cbn in Hr. apply andb_true_iff in Hr as [Hr1 Hr2].
      destruct (N.eqb_spec (fst (decode_rune (pt_rest (s_pt s)))) r) as [E|E]; [|discriminate].
      assert (Hn : pt_rest (s_pt s) <> []).
      { apply decode_nonempty. rewrite E. now apply negb_true_iff, N.eqb_neq in Hr1. }
      destruct (IH _ _ _ _ Hr2 H) as [K1 K2]. rewrite read_pt in K1, K2.
      destruct (seg_one _ Hn) as (S1 & S2 & S3).
      assert (St : Steps (s_pt s) (s_pt s')) by (eapply steps_trans; [apply steps_one; exact Hn|exact K2]).
      split; [|exact St]. rewrite (seg_app _ _ _ (steps_one _ Hn) K2). constructor; auto. now rewrite S3, E.
  Qed.

  Lemma prim_matches rule e en s v en' s' : lits_ok e = true -> Reach data (s_pt s) ->
    prim_out o g rule e en s = Some (OOk v en' s') -> matches g e (seg (s_pt s) (s_pt s')).
  Proof.
    intros He Hs. destruct e; cbn [prim_out]; try discriminate; intros H; try (injection H as H).
    - destruct p; try discriminate. injection H as _ _ <-. cbn. rewrite seg_refl. constructor.
    - subst s'. replace (s_pt (run_state o c s)) with (s_pt s); [rewrite seg_refl; constructor|].
      destruct c; cbn; [now destruct (s_warns s)|now destruct (_ && _)].
    - destruct (at_eof s) eqn:E; [discriminate|]. injection H as _ _ <-. rewrite fail_at_pt, read_pt.
      assert (Hn : pt_rest (s_pt s) <> []) by (rewrite <- at_eof_spec; congruence).
      destruct (seg_one _ Hn) as (S1 & S2 & S3). constructor; [exact S2|now rewrite S3].
    - destruct (at_eof s) eqn:E; [discriminate|]. cbn [negb andb] in H.
      destruct (class_match _ _ _ _) eqn:C; [|discriminate]. injection H as _ _ <-. rewrite fail_at_pt, read_pt.
      assert (Hn : pt_rest (s_pt s) <> []) by (rewrite <- at_eof_spec; congruence).
      destruct (seg_one _ Hn) as (S1 & S2 & S3). constructor; [exact S2|now rewrite S3|now rewrite S3].
    - constructor. now apply (lit_matches rule want (s_pt s) runes en s v en' s').
    - destruct (find_rule name g); discriminate.
  Qed.

  (** A lookahead for one character that succeeded *)
  Lemma not_char rule want c en s v en' s' :
    ev o g rule (ENot (ELit want [c])) en s (OOk v en' s') -> fst (decode_rune (pt_rest (s_pt s))) <> c.
  Proof.
    intros H. inversion H as [ | ? ? ? ? ? ? P | | | ? ? ? ? r L H1 | | | | | | ]; subst.
    - discriminate P.
    - destruct r as [v1 en1 s1|en1 s1| |]; cbn in *; try discriminate.
      inversion H1 as [ | ? ? ? ? ? L2 P2 | | | | | | | | | ]; subst. cbn in P2.
      destruct (N.eqb_spec (fst (decode_rune (pt_rest (s_pt s)))) c) as [E|E]; [|exact E].
      injection P2 as P2. discriminate P2.
  Qed.

  Definition out_seg (p : point) (r : out) (M : bytes -> Prop) : Prop :=
    match r with OOk _ _ s' => M (seg p (s_pt s')) | _ => True end.

  Lemma matches_run :
    (forall rule e en s r, ev o g rule e en s r -> lits_ok e = true -> Reach data (s_pt s) ->
       out_seg (s_pt s) r (matches g e)) /\
    (forall rule pt w es acc en s r, evs o g rule pt w es acc en s r -> forallb lits_ok es = true ->
       Reach data (s_pt s) ->
       match r with OOk _ _ s' => Steps (s_pt s) (s_pt s') | _ => True end /\
       out_seg (s_pt s) r (matches_seq g es)) /\
    (forall rule es en s r, evc o g rule es en s r -> forallb lits_ok es = true -> Reach data (s_pt s) ->
       out_seg (s_pt s) r (matches g (EChoice es))) /\
    (forall rule e acc en s r, evt o g rule e acc en s r -> lits_ok e = true -> Reach data (s_pt s) ->
       match r with
       | OOk v _ s' => Steps (s_pt s) (s_pt s') /\
           exists l vs, v = VList (rev acc ++ vs) /\ List.length vs = List.length l /\
             matches_all g e l /\ seg (s_pt s) (s_pt s') = List.concat l
       | _ => True end).
  Proof.
    apply ev_mutind.
    - intros. exact I.
    - intros rule e en s r _ H He Hs. destruct r; cbn; auto. exact (prim_matches rule e en (tick s) _ _ _ He Hs H).
    - intros rule a e en s r _ _ IH He Hs. specialize (IH He Hs).
      destruct r as [v en' s'|en' s'|m x s'|]; cbn in *; auto.
      destruct (run_action _ _ _ _ _ _); cbn; auto; now constructor.
    - intros rule l e en s r _ _ IH He Hs. specialize (IH He Hs). destruct r; cbn in *; auto. now constructor.
    - intros rule e en s r L H IH He Hs.
      assert (T : tracked (s_pt s) (s_warns s) (not_out en (tick s) r)).
      { apply (ev_track o g data Hg rule (ENot e) en s); auto. now apply ev_not. }
      destruct r as [v en' s'|en' s'|m x s'|]; unfold out_seg, not_out, tracked in *; auto.
      (* the point is back where it was *)
      replace (s_pt (restore _ _)) with (s_pt s); [rewrite seg_refl; constructor|].
      symmetry. apply (restore_pt data); [exact Hs|]. cbn.
      pose proof (ev_track o g data Hg _ _ _ _ _ H He Hs) as [E _]. now rewrite E.
    - intros rule e en s r L H IH He Hs. specialize (IH He Hs).
      pose proof (ev_track o g data Hg _ _ _ _ _ H He Hs) as T.
      destruct r as [v en' s'|en' s'|m x s'|]; cbn in *; auto; [now constructor|].
      destruct T as [T _]. cbn in T. rewrite T, seg_refl. apply m_opt_none.
    - intros rule name e en s r _ F _ IH _ Hs.
      assert (He : lits_ok e = true).
      { apply find_rule_in in F. unfold grammar_lits_ok in Hg. rewrite forallb_forall in Hg. exact (Hg _ F). }
      specialize (IH He Hs). destruct r; cbn in *; auto. econstructor; eauto.
    - intros rule es en s r _ _ IH He Hs. destruct (IH He Hs) as [_ K]. destruct r; cbn in *; auto. now constructor.
    - intros rule es en s r _ _ IH He Hs. exact (IH He Hs).
    - intros rule e en s r _ _ IH He Hs. specialize (IH He Hs). destruct r; cbn in *; auto.
      destruct IH as (_ & l & vs & _ & _ & M & E). rewrite E. now constructor.
    - intros rule e en s r _ _ IH He Hs. specialize (IH He Hs). destruct r as [v en' s'|en' s'|m x s'|]; cbn in *; auto.
      destruct IH as (_ & l & vs & E1 & E2 & M & E). cbn in E1. subst v.
      destruct vs as [|v vs]; cbn; auto. rewrite E. constructor; [|exact M]. destruct l; [discriminate|discriminate].
    - intros. cbn. rewrite seg_refl. split; constructor.
    - intros rule pt w e es acc en s v en' s' r H1 IH1 _ IH2 He Hs. cbn in He.
      apply andb_true_iff in He as [He1 He2].
      pose proof (ev_track o g data Hg _ _ _ _ _ H1 He1 Hs) as T. cbn in T.
      assert (Hr : Reach data (s_pt s')) by (eapply steps_reach; eauto).
      destruct (IH2 He2 Hr) as [K1 K2]. specialize (IH1 He1 Hs). cbn in IH1.
      destruct r as [v2 en2 s2|en2 s2|m2 x2 s2|]; cbn in *; auto.
      assert (St : Steps (s_pt s) (s_pt s2)) by (eapply steps_trans; eauto).
      split; [exact St|]. rewrite (seg_app _ _ _ T K1). constructor; auto.
      rewrite <- (seg_app _ _ _ T K1). unfold guard.
      destruct e; try exact I. destruct e; try exact I. destruct runes as [|c [|? ?]]; try exact I.
      intros N. rewrite (seg_head _ _ St N). eapply not_char; eauto.
    - intros. cbn. auto.
    - intros. cbn. auto.
    - intros. cbn. auto.
    - intros rule e es en s v en' s' _ IH He Hs. cbn in He. apply andb_true_iff in He as [He1 He2].
      specialize (IH He1 Hs). cbn in *. econstructor; [now left|exact IH].
    - intros rule e es en s en' s' r H1 IH1 _ IH2 He Hs. cbn in He. apply andb_true_iff in He as [He1 He2].
      destruct (ev_track o g data Hg _ _ _ _ _ H1 He1 Hs) as [T _]. cbn in IH2. rewrite T in IH2.
      specialize (IH2 He2 Hs). destruct r; cbn in *; auto.
      inversion IH2; subst. econstructor; [right; eauto|assumption].
    - intros. cbn. auto.
    - intros rule e acc en s en' s' H1 IH He Hs.
      destruct (ev_track o g data Hg _ _ _ _ _ H1 He Hs) as [T _]. rewrite T, seg_refl. split; [constructor|].
      exists [], []. rewrite app_nil_r. repeat split. constructor.
    - intros rule e acc en s v en' s' r H1 IH1 _ IH2 He Hs.
      pose proof (ev_track o g data Hg _ _ _ _ _ H1 He Hs) as T. cbn in T.
      assert (Hr : Reach data (s_pt s')) by (eapply steps_reach; eauto).
      specialize (IH2 He Hr). specialize (IH1 He Hs). cbn in IH1.
      destruct r as [v2 en2 s2|en2 s2|m2 x2 s2|]; cbn in *; auto.
      destruct IH2 as (K1 & l & vs & E1 & E2 & M & E). split; [eapply steps_trans; eauto|].
      exists (seg (s_pt s) (s_pt s') :: l), (v :: vs). cbn in E1. rewrite <- app_assoc in E1.
      repeat split; auto; [cbn; now rewrite E2|now constructor|]. cbn. now rewrite <- E, (seg_app _ _ _ T K1).
    - intros. cbn. auto.
  Qed.

  Theorem ev_matches rule e en s v en' s' :
    ev o g rule e en s (OOk v en' s') -> lits_ok e = true -> Reach data (s_pt s) ->
    matches g e (seg (s_pt s) (s_pt s')).
  Proof. intros H He Hs. exact (proj1 matches_run _ _ _ _ _ H He Hs). Qed.
End Match.

(** ** Invariants of values *)

(** The action blocks of an expression with what they enclose *)
Fixpoint acts (e : expr) : list (action * expr) :=
  match e with
  | EAct a e => (a, e) :: acts e
  | ELab _ e | ENot e | EPlus e | EStar e | EOpt e => acts e
  | EChoice l | ESeq l => flat_map acts l
  | _ => []
  end.
Definition grammar_acts (g : grammar) : list (action * expr) := flat_map (fun x => acts (snd x)) g.

Section ValInv.
  Variable o : settings.
  Variable g : grammar.
  Variable data : bytes.
  Hypothesis Hg : grammar_lits_ok g = true.
  Variable P : val -> Prop.
  Hypothesis PNil : P VNil.
  Hypothesis PBytes : forall t, P (VBytes t).
  Hypothesis PList : forall l, Forall P l -> P (VList l).
  Hypothesis Pact : forall a e w en p q v,
    In (a, e) (grammar_acts g) -> (forall l, P (lookup l en)) -> Reach data p -> Steps p q ->
    matches g e (seg p q) ->
    (run_action (o_ignore o) w a en (pt_pos p) (seg p q) = RVal v \/
     exists m, run_action (o_ignore o) w a en (pt_pos p) (seg p q) = RErr v m) -> P v.

  Definition env_ok (en : env) : Prop := forall l, P (lookup l en).
  Lemma env_nil : env_ok [].
  Proof. intros l. exact PNil. Qed.
  Lemma env_bind l v en : P v -> env_ok en -> env_ok (bind l v en).
  Proof. intros Hv He k. cbn. destruct (String.eqb l k); auto. Qed.

  Definition inv_out (r : out) : Prop :=
    match r with OOk v en _ => P v /\ env_ok en | OFail en _ => env_ok en | _ => True end.
  Definition in_g (e : expr) : Prop := lits_ok e = true /\ incl (acts e) (grammar_acts g).

  Lemma in_g_list es : forallb lits_ok es = true -> incl (flat_map acts es) (grammar_acts g) -> Forall in_g es.
  Proof.
    intros H1 H2. rewrite forallb_forall in H1. apply Forall_forall. intros e He. split; [auto|].
    intros x Hx. apply H2. apply in_flat_map. eauto.
  Qed.
  Lemma in_g_rule n e : find_rule n g = Some e -> in_g e.
  Proof.
    intros F. apply find_rule_in in F. split.
    - unfold grammar_lits_ok in Hg. rewrite forallb_forall in Hg. exact (Hg _ F).
    - intros x Hx. unfold grammar_acts. apply in_flat_map. exists (n, e). auto.
  Qed.

  Lemma inv_lit rule want p rs en : env_ok en -> forall s, inv_out (lit_loop o rule want p rs en s).
  Proof.
    intros He. induction rs as [|r rs IH]; intros s; cbn [lit_loop]; [split; auto|].
    destruct (_ =? r)%N; [apply IH|exact He].
  Qed.
  Lemma inv_prim rule e en s r : env_ok en -> prim_out o g rule e en s = Some r -> inv_out r.
  Proof.
    intros He. destruct e; cbn [prim_out]; try discriminate; intros H; try (injection H as <-).
    - destruct p; cbn; auto.
    - cbn; auto.
    - destruct (at_eof s); cbn; auto.
    - destruct (_ && _); cbn; auto.
    - now apply inv_lit.
    - destruct (find_rule name g); [discriminate|]. injection H as <-. cbn. auto.
  Qed.

  Lemma inv_all :
    (forall rule e en s r, ev o g rule e en s r -> in_g e -> Reach data (s_pt s) -> env_ok en -> inv_out r) /\
    (forall rule pt w es acc en s r, evs o g rule pt w es acc en s r -> Forall in_g es ->
       Reach data (s_pt s) -> env_ok en -> Forall P acc -> inv_out r) /\
    (forall rule es en s r, evc o g rule es en s r -> Forall in_g es -> Reach data (s_pt s) -> env_ok en -> inv_out r) /\
    (forall rule e acc en s r, evt o g rule e acc en s r -> in_g e -> Reach data (s_pt s) -> env_ok en ->
       Forall P acc -> inv_out r).
  Proof.
    apply ev_mutind.
    - intros. exact I.
    - intros rule e en s r _ H He Hs Hen. eapply inv_prim; eauto.
    - intros rule a e en s r L H IH [He1 He2] Hs Hen.
      assert (In1 : in_g e) by (split; [exact He1|intros x Hx; apply He2; now right]).
      specialize (IH In1 Hs Hen).
      destruct r as [v en' s'|en' s'|m x s'|]; auto.
      pose proof (ev_matches o g data Hg _ _ _ _ _ _ _ H He1 Hs) as M.
      pose proof (ev_track o g data Hg _ _ _ _ _ H He1 Hs) as T. cbn in T, M.
      destruct IH as [IH1 IH2]. unfold act_out. rewrite slice_seg.
      pose proof (fun w v => Pact a e w en' (s_pt (tick s)) (s_pt s') v (He2 _ (or_introl eq_refl)) IH2 Hs T M) as K.
      cbn zeta. destruct (run_action _ _ _ _ _ _) as [v'|v' m|m] eqn:E.
      + split; [|exact IH2]. apply (K _ v' (or_introl E)).
      + split; [|exact IH2]. eapply (K _ v'). right. exists m. exact E.
      + exact I.
    - intros rule l e en s r _ _ IH He Hs Hen. specialize (IH He Hs env_nil). destruct r; cbn in *; auto.
      destruct IH as [IH1 IH2]. split; [exact IH1|now apply env_bind].
    - intros rule e en s r _ _ IH He Hs Hen. destruct r; cbn; auto.
    - intros rule e en s r _ _ IH He Hs Hen. specialize (IH He Hs env_nil). destruct r; cbn in *; tauto.
    - intros rule name e en s r _ F _ IH _ Hs Hen. specialize (IH (in_g_rule _ _ F) Hs env_nil).
      destruct r; cbn in *; tauto.
    - intros rule es en s r _ _ IH [He1 He2] Hs Hen. apply IH; auto. now apply in_g_list.
    - intros rule es en s r _ _ IH [He1 He2] Hs Hen. apply IH; auto. now apply in_g_list.
    - intros rule e en s r _ _ IH He Hs Hen. apply IH; auto.
    - intros rule e en s r _ _ IH He Hs Hen. specialize (IH He Hs Hen (Forall_nil _)).
      destruct r as [v en' s'|en' s'|m x s'|]; cbn in *; auto. destruct v; auto. destruct l; auto.
    - intros. cbn. split; auto. apply PList. now apply Forall_rev.
    - intros rule pt w e es acc en s v en' s' r H1 IH1 _ IH2 He Hs Hen Hacc.
      inversion He as [|? ? He1 He2]; subst. destruct (IH1 He1 Hs Hen) as [K1 K2].
      pose proof (ev_track o g data Hg _ _ _ _ _ H1 (proj1 He1) Hs) as T. cbn in T.
      apply IH2; auto. eapply steps_reach; eauto.
    - intros rule pt w e es acc en s en' s' _ IH He Hs Hen Hacc. inversion He; subst. cbn. apply IH; auto.
    - intros. exact I.
    - intros. cbn. auto.
    - intros rule e es en s v en' s' _ IH He Hs Hen. inversion He; subst. cbn. split; auto.
      apply (IH); auto using env_nil.
    - intros rule e es en s en' s' r H1 IH1 _ IH2 He Hs Hen. inversion He as [|? ? He1 He2]; subst.
      destruct (ev_track o g data Hg _ _ _ _ _ H1 (proj1 He1) Hs) as [T _].
      apply IH2; auto. cbn. now rewrite T.
    - intros. exact I.
    - intros rule e acc en s en' s' _ IH He Hs Hen Hacc. cbn. split; auto. apply PList. now apply Forall_rev.
    - intros rule e acc en s v en' s' r H1 IH1 _ IH2 He Hs Hen Hacc.
      destruct (IH1 He Hs env_nil) as [K1 K2].
      pose proof (ev_track o g data Hg _ _ _ _ _ H1 (proj1 He) Hs) as T. cbn in T.
      apply IH2; auto. eapply steps_reach; eauto.
    - intros. exact I.
  Qed.

  Theorem ev_inv rule e en s v en' s' :
    ev o g rule e en s (OOk v en' s') -> in_g e -> Reach data (s_pt s) -> env_ok en -> P v.
  Proof. intros H He Hs Hen. exact (proj1 (proj1 inv_all _ _ _ _ _ H He Hs Hen)). Qed.
  Theorem rule_inv n e s v en' s' :
    find_rule n g = Some e -> ev o g n e [] s (OOk v en' s') -> Reach data (s_pt s) -> P v.
  Proof. intros F H Hs. eapply ev_inv; eauto using env_nil, in_g_rule. Qed.
End ValInv.
