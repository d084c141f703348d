(** Derivations on byte texts, without positions: [ok e en t s v en'] says that on
    the input [t ++ s] the expression [e] takes exactly [t] and returns [v].  The
    proof that these are derivations of PegSem.v. *)
From Coq Require Import List NArith Bool String Arith Lia.
From Verif Require Import Bytes Utf8 F64 Ast Peg Actions Engine PosFacts Matches PegSem Bare.
Import ListNotations.

Section Reads.
  Variable ign : bool.
  Variable g : grammar.

  Inductive ok : expr -> env -> bytes -> bytes -> val -> env -> Prop :=
  | ok_act a e en t s v0 en' v : ok e en t s v0 en' -> run_action ign (Some []) a en' zero_pos t = RVal v -> ok (EAct a e) en t s v en'
  | ok_state c en s : ok (EStateCode c) en [] s VNil en
  | ok_init en s : ok (EAndCode PInitParser) en [] s VNil en
  | ok_any en t s : t <> [] -> snd (decode_rune (t ++ s)) = List.length t -> ok EAny en t s (VBytes t) en
  | ok_class w cs rs inv en t s : t <> [] -> snd (decode_rune (t ++ s)) = List.length t ->
      class_match cs rs inv (fst (decode_rune (t ++ s))) = true -> ok (EClass w cs rs inv) en t s (VBytes t) en
  | ok_lit w rs en s : Forall (fun r => r < 128)%N rs -> ok (ELit w rs) en rs s (VBytes rs) en
  | ok_lab l e en t s v en' : ok e [] t s v en' -> ok (ELab l e) en t s v (bind l v en)
  | ok_not e en s : no e [] s -> ok (ENot e) en [] s VNil en
  | ok_opt e en t s v en' : ok e [] t s v en' -> ok (EOpt e) en t s v en
  | ok_opt_none e en s : no e [] s -> ok (EOpt e) en [] s VNil en
  | ok_ref n e en t s v en' : find_rule n g = Some e -> ok e [] t s v en' -> ok (ERef n) en t s v en
  | ok_seq es en t s l en' : oks es en t s l en' -> ok (ESeq es) en t s (VList l) en'
  | ok_choice e es en t s v en' : ok e [] t s v en' -> ok (EChoice (e :: es)) en t s v en
  | ok_next e es en t s v en' : no e [] (t ++ s) -> ok (EChoice es) en t s v en' -> ok (EChoice (e :: es)) en t s v en'
  | ok_star e en t s l : okt e t s l -> ok (EStar e) en t s (VList l) en
  | ok_plus e en t s v l : okt e t s (v :: l) -> ok (EPlus e) en t s (VList (v :: l)) en
  with oks : list expr -> env -> bytes -> bytes -> list val -> env -> Prop :=
  | oks_nil en s : oks [] en [] s [] en
  | oks_cons e es en t1 t2 s v en1 l en' : ok e en t1 (t2 ++ s) v en1 -> oks es en1 t2 s l en' -> oks (e :: es) en (t1 ++ t2) s (v :: l) en'
  with okt : expr -> bytes -> bytes -> list val -> Prop :=
  | okt_stop e s : no e [] s -> okt e [] s []
  | okt_more e t1 t2 s v en' l : ok e [] t1 (t2 ++ s) v en' -> okt e t2 s l -> okt e (t1 ++ t2) s (v :: l)
  with no : expr -> env -> bytes -> Prop :=
  | no_act a e en s : no e en s -> no (EAct a e) en s
  | no_soft m en s : no (EAndCode (PPushError m)) en s
  | no_any en : no EAny en []
  | no_class w cs rs inv en s : s = [] \/ class_match cs rs inv (fst (decode_rune s)) = false -> no (EClass w cs rs inv) en s
  | no_lit w rs en s : Forall (fun r => r < 128)%N rs -> (forall t, s <> rs ++ t) -> no (ELit w rs) en s
  | no_lab l e en s : no e [] s -> no (ELab l e) en s
  | no_not e en t s v en' : ok e [] t s v en' -> no (ENot e) en (t ++ s)
  | no_ref n e en s : find_rule n g = Some e -> no e [] s -> no (ERef n) en s
  | no_seq es en s : nos es en s -> no (ESeq es) en s
  | no_choice e es en s : no e [] s -> no (EChoice es) en s -> no (EChoice (e :: es)) en s
  | no_none en s : no (EChoice []) en s
  | no_plus e en s : no e [] s -> no (EPlus e) en s
  with nos : list expr -> env -> bytes -> Prop :=
  | nos_here e es en s : no e en s -> nos (e :: es) en s
  | nos_later e es en t s v en1 : ok e en t s v en1 -> nos es en1 s -> nos (e :: es) en (t ++ s).

  Scheme ok_mind := Minimality for ok Sort Prop
    with oks_mind := Minimality for oks Sort Prop
    with okt_mind := Minimality for okt Sort Prop
    with no_mind := Minimality for no Sort Prop
    with nos_mind := Minimality for nos Sort Prop.
  Combined Scheme ok_mutind from ok_mind, oks_mind, okt_mind, no_mind, nos_mind.

  (** ** These are derivations *)
  Definition bare_env (en : env) : env := map (fun x => (fst x, bare (snd x))) en.
  Lemma bare_lookup l en : lookup l (bare_env en) = bare (lookup l en).
  Proof. induction en as [|[k v] en IH]; [reflexivity|]. cbn. destruct (String.eqb k l); auto. Qed.
  Lemma steps_seg p q : Steps p q -> pt_rest p = seg p q ++ pt_rest q.
  Proof. intros H. apply (proj1 (steps_rest p q H)). Qed.
  Lemma seg_text p q t s : Steps p q -> pt_rest p = t ++ s -> pt_rest q = s -> seg p q = t.
  Proof. intros H E1 E2. apply steps_seg in H. rewrite E1, E2 in H. symmetry. eapply app_inv_tail. exact H. Qed.
  Lemma one_step p t s : pt_rest p = t ++ s -> t <> [] -> snd (decode_rune (t ++ s)) = List.length t ->
    Steps p (advance_pt p) /\ pt_rest (advance_pt p) = s /\ seg p (advance_pt p) = t.
  Proof.
    intros E N D. assert (X : pt_rest p <> []) by (rewrite E; destruct t; [congruence|discriminate]).
    assert (R : pt_rest (advance_pt p) = s). { rewrite advance_rest, E, D. rewrite skipn_app, skipn_all, Nat.sub_diag. reflexivity. }
    split; [now apply steps_one|]. split; [exact R|]. eapply seg_text; [now apply steps_one|exact E|exact R].
  Qed.
  Lemma ascii_rune c t : (c < 128)%N -> decode_rune (c :: t) = (c, 1).
  Proof. intros H. cbn. apply N.ltb_lt in H. now rewrite H. Qed.
  Lemma lit_reads rs : Forall (fun r => r < 128)%N rs -> forall p s, pt_rest p = rs ++ s -> exists q, lit_end rs p = Some q /\ Steps p q /\ pt_rest q = s.
  Proof.
    induction 1 as [|r rs Hr H IH]; intros p s E.
    - exists p. repeat split; [constructor|exact E].
    - cbn [lit_end]. rewrite E. cbn [app]. rewrite (ascii_rune _ _ Hr). cbn [fst]. rewrite N.eqb_refl.
      destruct (one_step p [r] (rs ++ s) E) as (S1 & S2 & _); [discriminate|cbn [app]; now rewrite (ascii_rune _ _ Hr)|].
      destruct (IH _ s S2) as (q & E1 & E2 & E3). exists q. split; [exact E1|]. split; [|exact E3]. eapply steps_trans; eauto.
  Qed.
  Lemma rune_ascii_first s c : (c < 128)%N -> fst (decode_rune s) = c -> exists t, s = c :: t.
  Proof.
    intros H E. destruct s as [|c0 s]; [cbn in E; subst; unfold RuneError in H; lia|]. cbn [decode_rune] in E. destruct (N.ltb_spec c0 128) as [K|K].
    - cbn in E. subst. eauto.
    - exfalso. revert E. unfold RuneError, in_range, cont.
      repeat match goal with
      | |- context [if ?x then _ else _] => let E := fresh "E" in destruct x eqn:E
      | |- context [match ?l with [] => _ | _ :: _ => _ end] => is_var l; destruct l
      end; cbn [fst]; intros X; rewrite ?andb_true_iff, ?N.leb_le in *;
      repeat match goal with H : context [if ?x then _ else _] |- _ => destruct x eqn:? end; rewrite ?N.eqb_eq, ?N.eqb_neq in *; lia.
  Qed.
  Lemma lit_misses rs : Forall (fun r => r < 128)%N rs -> forall p, (forall t, pt_rest p <> rs ++ t) -> lit_end rs p = None.
  Proof.
    induction 1 as [|r rs Hr H IH]; intros p E.
    - elim (E (pt_rest p)). reflexivity.
    - cbn [lit_end]. destruct (N.eqb_spec (fst (decode_rune (pt_rest p))) r) as [X|X]; [|reflexivity].
      destruct (rune_ascii_first _ _ Hr X) as (t & Et). apply IH. intros u Hu. apply (E u). rewrite Et. cbn [app]. f_equal.
      rewrite advance_rest, Et, (ascii_rune _ _ Hr) in Hu. exact Hu.
  Qed.

  Definition reach (r : pout) (p : point) (s : bytes) (v : val) (en : env) : Prop :=
    exists v0 en0 q, r = POk v0 en0 q /\ Steps p q /\ pt_rest q = s /\ bare v0 = v /\ bare_env en0 = en.
  Lemma bind_bare l v en : bare_env (bind l v en) = bind l (bare v) (bare_env en).
  Proof. reflexivity. Qed.
  Lemma reads_all :
    (forall e en t s v en', ok e en t s v en' -> forall p en0, pt_rest p = t ++ s -> bare_env en0 = en ->
       exists v0 en1 q, peg ign g e en0 p (POk v0 en1 q) /\ Steps p q /\ pt_rest q = s /\ bare v0 = v /\ bare_env en1 = en') /\
    (forall es en t s l en', oks es en t s l en' -> forall p en0, pt_rest p = t ++ s -> bare_env en0 = en ->
       exists l0 en1 q, pegs ign g es en0 p (POk (VList l0) en1 q) /\ Steps p q /\ pt_rest q = s /\ map bare l0 = l /\ bare_env en1 = en') /\
    (forall e t s l, okt e t s l -> forall p, pt_rest p = t ++ s ->
       exists l0 q, pegt ign g e p (Some (l0, q)) /\ Steps p q /\ pt_rest q = s /\ map bare l0 = l) /\
    (forall e en s, no e en s -> forall p en0, pt_rest p = s -> bare_env en0 = en -> peg ign g e en0 p PFail) /\
    (forall es en s, nos es en s -> forall p en0, pt_rest p = s -> bare_env en0 = en -> pegs ign g es en0 p PFail).
  Proof.
    apply ok_mutind.
    - intros a e en t s v0 en' v _ IH A p en0 E1 E2. destruct (IH p en0 E1 E2) as (w & en1 & q & D & S & R & Hv & He).
      assert (T : seg p q = t) by (eapply seg_text; eauto).
      pose proof (run_action_bare ign (Some []) a en1 en' (pt_pos p) (seg p q)) as X. rewrite T in X. rewrite X in A by (intros l; rewrite <- He; apply bare_lookup).
      destruct (run_action ign (Some []) a en1 (pt_pos p) t) as [x| |] eqn:Ex; try discriminate. cbn in A. inversion A; subst.
      exists x, en1, q. split; [eapply peg_act; [exact D|now rewrite Ex]|auto].
    - intros c en s p en0 E1 E2. exists VNil, en0, p. repeat split; auto; constructor.
    - intros en s p en0 E1 E2. exists VNil, en0, p. repeat split; auto; constructor.
    - intros en t s N D p en0 E1 E2. destruct (one_step p t s E1 N D) as (S1 & S2 & S3). exists (VBytes t), en0, (advance_pt p).
      split; [|repeat split; auto]. rewrite <- S3 at 1. apply peg_any. rewrite E1. destruct t; [congruence|discriminate].
    - intros w cs rs inv en t s N D C p en0 E1 E2. destruct (one_step p t s E1 N D) as (S1 & S2 & S3). exists (VBytes t), en0, (advance_pt p).
      split; [|repeat split; auto]. rewrite <- S3 at 1. apply peg_class; [rewrite E1; destruct t; [congruence|discriminate]|now rewrite E1].
    - intros w rs en s A p en0 E1 E2. destruct (lit_reads _ A p s E1) as (q & L & S & R). exists (VBytes rs), en0, q. split; [|repeat split; auto].
      pose proof (peg_lit ign g w rs en0 p q L) as X. rewrite (seg_text p q rs s S E1 R) in X. exact X.
    - intros l e en t s v en' _ IH p en0 E1 E2. destruct (IH p [] E1 eq_refl) as (w & en1 & q & D & S & R & Hv & He).
      exists w, (bind l w en0), q. split; [eapply peg_lab; eauto|]. rewrite bind_bare, Hv, E2. auto.
    - intros e en s _ IH p en0 E1 E2. exists VNil, en0, p. split; [apply peg_not; apply IH; auto|]. repeat split; auto; constructor.
    - intros e en t s v en' _ IH p en0 E1 E2. destruct (IH p [] E1 eq_refl) as (w & en1 & q & D & S & R & Hv & He).
      exists w, en0, q. split; [eapply peg_opt; eauto|]. auto.
    - intros e en s _ IH p en0 E1 E2. exists VNil, en0, p. split; [apply peg_opt_none; apply IH; auto|]. repeat split; auto; constructor.
    - intros n e en t s v en' F _ IH p en0 E1 E2. destruct (IH p [] E1 eq_refl) as (w & en1 & q & D & S & R & Hv & He).
      exists w, en0, q. split; [eapply peg_ref; eauto|]. auto.
    - intros es en t s l en' _ IH p en0 E1 E2. destruct (IH p en0 E1 E2) as (w & en1 & q & D & S & R & Hv & He).
      exists (VList w), en1, q. split; [now apply peg_seq|]. cbn. rewrite Hv. auto.
    - intros e es en t s v en' _ IH p en0 E1 E2. destruct (IH p [] E1 eq_refl) as (w & en1 & q & D & S & R & Hv & He).
      exists w, en0, q. split; [eapply peg_choice; eauto|]. auto.
    - intros e es en t s v en' _ IHn _ IH p en0 E1 E2. destruct (IH p en0 E1 E2) as (w & en1 & q & D & S & R & Hv & He).
      exists w, en1, q. split; [eapply peg_choice_next; eauto|]. auto.
    - intros e en t s l _ IH p en0 E1 E2. destruct (IH p E1) as (w & q & D & S & R & Hv).
      exists (VList w), en0, q. split; [now apply peg_star|]. cbn. rewrite Hv. auto.
    - intros e en t s v l _ IH p en0 E1 E2. destruct (IH p E1) as (w & q & D & S & R & Hv). destruct w as [|w0 w]; [discriminate|].
      exists (VList (w0 :: w)), en0, q. split; [now apply peg_plus|]. cbn in *. rewrite Hv. auto.
    - intros en s p en0 E1 E2. exists [], en0, p. repeat split; auto; constructor.
    - intros e es en t1 t2 s v en1 l en' _ IH1 _ IH2 p en0 E1 E2. rewrite <- app_assoc in E1. destruct (IH1 p en0 E1 E2) as (w & en2 & q & D & S & R & Hv & He).
      destruct (IH2 q en2 R He) as (w' & en3 & q' & D' & S' & R' & Hv' & He'). exists (w :: w'), en3, q'. split; [eapply pegs_cons; eauto|].
      split; [eapply steps_trans; eauto|]. cbn. rewrite Hv, Hv'. auto.
    - intros e s _ IH p E1. exists [], p. split; [apply pegt_stop, IH; auto|]. repeat split; auto; constructor.
    - intros e t1 t2 s v en' l _ IH1 _ IH2 p E1. rewrite <- app_assoc in E1. destruct (IH1 p [] E1 eq_refl) as (w & en2 & q & D & S & R & Hv & He).
      destruct (IH2 q R) as (w' & q' & D' & S' & R' & Hv'). exists (w :: w'), q'. split; [eapply pegt_more; eauto|].
      split; [eapply steps_trans; eauto|]. cbn. rewrite Hv, Hv'. auto.
    - intros a e en s _ IH p en0 E1 E2. apply peg_act_no; [apply IH; auto|now left].
    - intros. apply peg_soft.
    - intros en p en0 E1 E2. now apply peg_any_eof.
    - intros w cs rs inv en s C p en0 E1 E2. apply peg_class_no. now rewrite E1.
    - intros w rs en s A N p en0 E1 E2. apply peg_lit_no. apply lit_misses; [exact A|]. now rewrite E1.
    - intros l e en s _ IH p en0 E1 E2. apply peg_lab_no; [apply IH; auto|now left].
    - intros e en t s v en' _ IH p en0 E1 E2. destruct (IH p [] E1 eq_refl) as (w & en1 & q & D & _). eapply peg_not_no. exact D.
    - intros n e en s F _ IH p en0 E1 E2. eapply peg_ref_no; [exact F|apply IH; auto|now left].
    - intros es en s _ IH p en0 E1 E2. apply peg_seq_no; [apply IH; auto|now left].
    - intros e es en s _ IH1 _ IH2 p en0 E1 E2. apply peg_choice_next; auto.
    - intros. apply peg_choice_none.
    - intros e en s _ IH p en0 E1 E2. eapply peg_plus_no. apply pegt_stop. apply IH; auto.
    - intros e es en s _ IH p en0 E1 E2. apply pegs_no; [apply IH; auto|now left].
    - intros e es en t s v en1 _ IH1 _ IH2 p en0 E1 E2. destruct (IH1 p en0 E1 E2) as (w & en2 & q & D & S & R & Hv & He).
      eapply pegs_later; [exact D|apply IH2; auto|now left].
  Qed.
  Theorem reads_peg e t s v en' : ok e [] t s v en' -> forall p, pt_rest p = t ++ s ->
    exists v0 en1 q, peg ign g e [] p (POk v0 en1 q) /\ pt_rest q = s /\ bare v0 = v.
  Proof.
    intros H p E. destruct (proj1 reads_all _ _ _ _ _ _ H p [] E eq_refl) as (v0 & en1 & q & D & _ & R & V & _). eauto 6.
  Qed.
End Reads.
