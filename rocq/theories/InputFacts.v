(** A successful parse consumed the whole input, which is valid UTF-8. *)
From Coq Require Import List NArith ZArith Bool String Arith Lia.
From Verif Require Import Bytes Utf8 F64 Ast Peg Actions Engine Parser GrammarGen QuoteFacts Utf8Facts PosFacts Run EngineFacts
  Termination Matches RunInv Sim HistFacts ParseFacts.
Import ListNotations.

(** ** End of input *)

Lemma init_ok_eof o data s v en s' : Reach data (s_pt s) ->
  ev o gen_grammar "init" gen_init [] s (OOk v en s') -> pt_rest (s_pt s') = [].
Proof.
  intros Hs H.
  assert (Not : forall rule en s v en' s', Reach data (s_pt s) ->
     ev o gen_grammar rule (ENot EAny) en s (OOk v en' s') -> pt_rest (s_pt s') = []).
  { clear. intros rule en s v en' s' Hs H.
    assert (E : s_pt s' = s_pt s).
    { pose proof (ev_track o gen_grammar data gen_lits_ok _ _ _ _ _ H eq_refl Hs) as T. cbn in T.
      pose proof (ev_matches o gen_grammar data gen_lits_ok _ _ _ _ _ _ _ H eq_refl Hs) as M.
      assert (E : seg (s_pt s) (s_pt s') = []) by (inversion M; congruence). symmetry. apply steps_eq; auto.
      destruct (steps_rest _ _ T) as [_ L]. rewrite E in L. cbn in L. pose proof (steps_off _ _ T). lia. }
    rewrite E. apply inv_not in H as [[_ K]|[_ (r1 & H & K)]]; [discriminate|].
    eapply inv_prim in H; [|reflexivity]. destruct H as [[_ ->]|[_ ->]]; [discriminate|].
    destruct (at_eof _) eqn:A in K; [|discriminate]. apply at_eof_spec in A. exact A. }
  apply init_run in H as [[_ (s1 & H & _)]|[_ (r1 & H & E)]]; [discriminate|].
  destruct r1 as [v1 en1 s1| | |]; try discriminate. cbn in E. inversion E; subst. clear E. cbn.
  apply inv_evs_cons in H as (r2 & H & E). destruct r2 as [v2 en2 s2| | |]; try discriminate.
  apply inv_evs_nil in E. inversion E; subst. clear E.
  assert (Hs2 : Reach data (s_pt (started o s))).
  { unfold started. cbn. destruct (s_warns s); exact Hs. }
  unfold init_conf in H. cbn in H. apply inv_lab in H as [[_ K]|[_ (r1 & H & K)]]; [discriminate|].
  destruct r1 as [v3 en3 s3| | |]; try discriminate. cbn in K. inversion K; subst. clear K.
  apply inv_choice in H as [[_ K]|[_ H]]; [discriminate|].
  assert (Two : forall rule e en s v en' s', Reach data (s_pt s) -> lits_ok e = true ->
     ev o gen_grammar rule (ESeq [e; ENot EAny]) en s (OOk v en' s') -> pt_rest (s_pt s') = []).
  { clear - Not. intros rule e en s v en' s' Hs He H. apply inv_seq in H as [[_ K]|[_ H]]; [discriminate|].
    apply inv_evs_cons in H as (r2 & A & E). destruct r2 as [v2 en2 s2| | |]; try discriminate.
    apply inv_evs_cons in E as (r3 & B & E). destruct r3 as [v3 en3 s3| | |]; try discriminate.
    apply inv_evs_nil in E. inversion E; subst. eapply Not; [|exact B].
    pose proof (ev_track o gen_grammar data gen_lits_ok _ _ _ _ _ A He Hs) as T. cbn in T.
    eapply steps_reach; [|exact T]. exact Hs. }
  apply inv_evc_cons in H as (r1 & A & H). destruct r1 as [v4 en4 s4|en4 s4| |]; try discriminate.
  - inversion H; subst. apply inv_act in A as [[_ K]|[_ (r1 & A & K)]]; [discriminate|].
    destruct r1 as [v5 en5 s5| | |]; try discriminate. cbn in K. inversion K; subst. cbn.
    eapply (Two _ _ _ _ _ _ _ _ _ A).
    Unshelve. exact Hs2. reflexivity.
  - assert (P : s_pt s4 = s_pt (started o s)).
    { exact (proj1 (ev_track o gen_grammar data gen_lits_ok _ _ _ _ _ A eq_refl Hs2)). }
    apply inv_evc_cons in H as (r1 & B & H). destruct r1 as [v5 en5 s5|en5 s5| |]; try discriminate.
    + inversion H; subst. apply inv_act in B as [[_ K]|[_ (r1 & B & K)]]; [discriminate|].
      destruct r1 as [v6 en6 s6| | |]; try discriminate. cbn in K. inversion K; subst. cbn.
      eapply (Two _ _ _ _ _ _ _ _ _ B).
    + apply inv_evc_nil in H. discriminate.
      Unshelve. cbn. rewrite P. exact Hs2. reflexivity.
Qed.

Lemma parse_whole opts ff data c errs ff' :
  k_entry (config_of opts) = "init"%string ->
  parse opts ff data = (Returned (VConfig c) errs, ff') ->
  matches gen_grammar (ERef "init") data.
Proof.
  intros He. pose proof (parse_run opts ff data) as P. rewrite He, find_init in P. destruct P as (r & R & ->).
  destruct r as [v en s|en s|m x s|]; cbn; try discriminate.
  2: destruct (k_recover _); discriminate.
  intros _.
  assert (Hs : Reach data (s_pt (init_st (settings_of (config_of opts)) ff data))) by (rewrite init_st_pt; constructor).
  pose proof (init_ok_eof _ _ _ _ _ _ Hs R) as E.
  pose proof (ev_matches _ _ data gen_lits_ok _ _ _ _ _ _ _ R (forallb_rule "init" gen_init gen_lits_ok find_init) Hs) as M.
  pose proof (ev_track _ _ data gen_lits_ok _ _ _ _ _ R (forallb_rule "init" gen_init gen_lits_ok find_init) Hs) as T. cbn in T.
  destruct (steps_rest _ _ T) as [K _]. rewrite E, app_nil_r in K. rewrite <- K in M.
  rewrite init_st_pt, start_rest in M. econstructor; [exact find_init|exact M].
Qed.

(** ** Encoding *)

(** No place up to (and including) [p] holds an encoding error *)
Definition clean (data : bytes) (p : point) : Prop :=
  forall q, Reach data q -> Steps q p -> bad_rune (pt_rest q) = false.

Lemma clean_advance data p : Reach data p -> pt_rest p <> [] -> clean data p -> bad_rune (pt_rest (advance_pt p)) = false ->
  clean data (advance_pt p).
Proof.
  intros Hp Hn H B q Hq Hs.
  pose proof (steps_off _ _ Hs) as O. destruct (Nat.eq_dec (p_off (pt_pos q)) (p_off (pt_pos (advance_pt p)))) as [E|E].
  - apply steps_eq in Hs; auto. now subst.
  - apply H; [exact Hq|]. destruct (Nat.le_gt_cases (p_off (pt_pos q)) (p_off (pt_pos p))) as [L|L].
    + now apply (reach_steps_le data).
    + exfalso. assert (K : Steps p q) by (apply (reach_steps_le data); auto; lia).
      apply steps_first in K as [->|[_ K]]; [lia|]. apply steps_off in K. lia.
Qed.

Lemma read_errs o rule s : s_errs (read o rule s) = s_errs s \/ s_errs (read o rule s) <> [].
Proof.
  unfold read, check_rune. destruct (_ && _); [right|now left]. cbn. destruct (s_errs s); discriminate.
Qed.
Lemma read_clean o data rule s : o_invalid o = false -> Reach data (s_pt s) -> pt_rest (s_pt s) <> [] ->
  s_errs (read o rule s) = [] -> clean data (s_pt s) -> clean data (s_pt (read o rule s)).
Proof.
  intros Hi Hs Hn He Hc. rewrite read_pt. apply clean_advance; auto.
  unfold read, check_rune in He. rewrite Hi in He. cbn [negb] in He. rewrite andb_true_r in He. cbn in He.
  destruct (bad_rune _) eqn:B; [|reflexivity]. cbn in He. destruct (s_errs s); discriminate.
Qed.
Lemma fail_at_errs x p w s : s_errs (fail_at x p w s) = s_errs s.
Proof. unfold fail_at. destruct (Bool.eqb _ _); auto. destruct (_ <? _); auto. now destruct (_ <? _). Qed.

Section Clean.
  Variable o : settings.
  Variable g : grammar.
  Variable data : bytes.
  Hypothesis Hg : grammar_lits_ok g = true.
  Hypothesis Hi : o_invalid o = false.

  (** If the outcome is good and there are no errors, the consumed text is clean *)
  Definition keeps (s : st) (r : out) : Prop :=
    match r with OOk _ _ s' => s_errs s' = [] -> clean data (s_pt s) -> clean data (s_pt s') | _ => True end.

  Lemma keeps_lit rule want p en rs : forall s, forallb (fun r => negb (r =? RuneError)%N) rs = true -> Reach data (s_pt s) ->
    keeps s (lit_loop o rule want p rs en s).
  Proof.
    induction rs as [|r rs IH]; intros s Hr Hs; cbn [lit_loop].
    - cbn. now rewrite fail_at_errs, fail_at_pt.
    - cbn in Hr. apply andb_true_iff in Hr as [Hr1 Hr2].
      destruct (N.eqb_spec (fst (decode_rune (pt_rest (s_pt s)))) r) as [E|E]; [|exact I].
      assert (Hn : pt_rest (s_pt s) <> []).
      { apply decode_nonempty. rewrite E. now apply negb_true_iff, N.eqb_neq in Hr1. }
      assert (Hs' : Reach data (s_pt (read o (Some rule) s))) by (rewrite read_pt; now apply reach_next).
      specialize (IH _ Hr2 Hs').
      assert (M : forall v en' s', lit_loop o rule want p rs en (read o (Some rule) s) = OOk v en' s' ->
        exists l, s_errs s' = s_errs (read o (Some rule) s) ++ l).
      { clear. generalize (read o (Some rule) s). induction rs as [|r rs IH]; intros s0 v en' s'; cbn [lit_loop].
        - intros H; inversion H; subst. exists []. now rewrite fail_at_errs, app_nil_r.
        - destruct (_ =? _)%N; [|discriminate]. intros H. apply IH in H as [l ->].
          unfold read, check_rune. destruct (_ && _); cbn; [rewrite <- app_assoc|]; eauto. }
      destruct (lit_loop o rule want p rs en (read o (Some rule) s)) as [v en' s'| | |] eqn:El; cbn in *; auto.
      intros He Hc. destruct (M _ _ _ eq_refl) as [l Hl].
      apply IH; [exact He|]. apply read_clean; auto.
      rewrite He in Hl. symmetry in Hl. now apply app_eq_nil in Hl.
  Qed.

  Lemma ok_errs rule e en s v en' s' : ev o g rule e en s (OOk v en' s') -> s_errs s' = [] -> s_errs s = [].
  Proof. intros H E. apply ev_errs in H as [l H]. rewrite E in H. symmetry in H. now apply app_eq_nil in H. Qed.
  Lemma errs_mono :
    (forall rule pt w es acc en s r, evs o g rule pt w es acc en s r -> out_st r (fun s' => exists l, s_errs s' = s_errs s ++ l)) /\
    (forall rule es en s r, evc o g rule es en s r -> out_st r (fun s' => exists l, s_errs s' = s_errs s ++ l)) /\
    (forall rule e acc en s r, evt o g rule e acc en s r -> out_st r (fun s' => exists l, s_errs s' = s_errs s ++ l)).
  Proof.
    pose (R := fun s s' : st => exists l, s_errs s' = s_errs s ++ l).
    assert (K := ev_mono_all o g R).
    refine ((fun Z => conj (proj1 (proj2 Z)) (conj (proj1 (proj2 (proj2 Z))) (proj2 (proj2 (proj2 Z))))) (K _ _ _ _ _ _ _ _ _ _ _ _)); clear K;
      unfold R; intros; try (exists []; now rewrite app_nil_r).
    - destruct H as [l H], H0 as [l' H']. exists (l ++ l'). now rewrite H', H, app_assoc.
    - eexists. reflexivity.
    - exists []. now rewrite push_error_errs, app_nil_r.
  Qed.

  Lemma keeps_all :
    (forall rule e en s r, ev o g rule e en s r -> lits_ok e = true -> Reach data (s_pt s) -> keeps s r) /\
    (forall rule pt w es acc en s r, evs o g rule pt w es acc en s r -> forallb lits_ok es = true -> Reach data (s_pt s) -> keeps s r) /\
    (forall rule es en s r, evc o g rule es en s r -> forallb lits_ok es = true -> Reach data (s_pt s) -> keeps s r) /\
    (forall rule e acc en s r, evt o g rule e acc en s r -> lits_ok e = true -> Reach data (s_pt s) -> keeps s r).
  Proof.
    destruct errs_mono as (Ms & Mc & Mt).
    assert (Nil : forall (r : out) s, out_st r (fun s' => exists l, s_errs s' = s_errs s ++ l) ->
       match r with OOk _ _ s' => s_errs s' = [] -> s_errs s = [] | _ => True end).
    { intros [v en s'|en s'|m x s'|] s; cbn; auto. intros [l ->] E. now apply app_eq_nil in E. }
    apply ev_mutind.
    - intros. exact I.
    - intros rule e en s r _ P He Hs. destruct e; cbn in P; try discriminate; try (injection P as <-).
      + destruct p; cbn; auto.
      + cbn. destruct c; cbn; [destruct (s_warns s)|destruct (_ && _)]; auto.
      + destruct (at_eof _) eqn:A; [exact I|]. unfold keeps. rewrite fail_at_errs, fail_at_pt. intros.
        assert (Hn : pt_rest (s_pt (tick s)) <> []) by (rewrite <- at_eof_spec; congruence).
        apply read_clean; auto.
      + destruct (at_eof _) eqn:A; [exact I|]. cbn [negb andb]. destruct (class_match _ _ _ _); [|exact I].
        unfold keeps. rewrite fail_at_errs, fail_at_pt. intros.
        assert (Hn : pt_rest (s_pt (tick s)) <> []) by (rewrite <- at_eof_spec; congruence).
        apply read_clean; auto.
      + apply (keeps_lit rule want (s_pt (tick s)) en runes (tick s)); auto.
      + destruct (find_rule name g); [discriminate|]. injection P as <-. exact I.
    - intros rule a e en s r _ H IH He Hs. specialize (IH He Hs).
      destruct r as [v en' s'|en' s'|m x s'|]; cbn in *; auto.
      destruct (run_action _ _ _ _ _ _); cbn; auto.
      intros E. apply app_eq_nil in E as [_ E]. discriminate.
    - intros rule l e en s r _ _ IH He Hs. specialize (IH He Hs). destruct r; cbn in *; auto.
    - intros rule e en s r L H IH He Hs. pose proof (ev_track o g data Hg _ _ _ _ _ H He Hs) as T.
      destruct r as [v en' s'|en' s'|m x s'|]; try exact I. unfold keeps, not_out.
      intros _ Hc. rewrite (restore_pt data); [exact Hc|exact Hs|]. cbn. destruct T as [-> _]. exact Hs.
    - intros rule e en s r _ H IH He Hs. specialize (IH He Hs). pose proof (ev_track o g data Hg _ _ _ _ _ H He Hs) as T.
      destruct r; cbn in *; auto. destruct T as [-> _]. auto.
    - intros rule name e en s r _ F _ IH _ Hs.
      assert (He : lits_ok e = true).
      { apply find_rule_in in F. unfold grammar_lits_ok in Hg. rewrite forallb_forall in Hg. exact (Hg _ F). }
      specialize (IH He Hs). destruct r; cbn in *; auto.
    - intros rule es en s r _ _ IH He Hs. exact (IH He Hs).
    - intros rule es en s r _ _ IH He Hs. exact (IH He Hs).
    - intros rule e en s r _ _ IH He Hs. exact (IH He Hs).
    - intros rule e en s r _ _ IH He Hs. specialize (IH He Hs).
      destruct r as [v en' s'|en' s'|m x s'|]; cbn in *; auto. destruct v; auto. destruct l; cbn; auto.
    - intros. cbn. auto.
    - intros rule pt w e es acc en s v en' s' r H1 IH1 H2 IH2 He Hs. cbn in He.
      apply andb_true_iff in He as [He1 He2]. specialize (IH1 He1 Hs).
      pose proof (ev_track o g data Hg _ _ _ _ _ H1 He1 Hs) as T. cbn in T.
      specialize (IH2 He2 (steps_reach _ _ _ Hs T)). apply Ms in H2. apply Nil in H2.
      destruct r; cbn in *; auto.
    - intros. exact I.
    - intros. exact I.
    - intros. exact I.
    - intros rule e es en s v en' s' _ IH He Hs. cbn in He. apply andb_true_iff in He as [He1 He2]. exact (IH He1 Hs).
    - intros rule e es en s en' s' r H1 _ H2 IH2 He Hs. cbn in He. apply andb_true_iff in He as [He1 He2].
      destruct (ev_track o g data Hg _ _ _ _ _ H1 He1 Hs) as [T _]. specialize (IH2 He2). cbn in IH2. rewrite T in IH2.
      specialize (IH2 Hs). destruct r; cbn in *; auto. now rewrite T in IH2.
    - intros. exact I.
    - intros rule e acc en s en' s' H IH He Hs. destruct (ev_track o g data Hg _ _ _ _ _ H He Hs) as [T _].
      cbn. rewrite T. auto.
    - intros rule e acc en s v en' s' r H1 IH1 H2 IH2 He Hs. specialize (IH1 He Hs).
      pose proof (ev_track o g data Hg _ _ _ _ _ H1 He Hs) as T. cbn in T.
      specialize (IH2 He (steps_reach _ _ _ Hs T)). apply Mt in H2. apply Nil in H2.
      destruct r; cbn in *; auto.
    - intros. exact I.
  Qed.
End Clean.

Lemma clean_utf8 data p : Reach data p -> pt_rest p = [] -> clean data p -> utf8_text data.
Proof.
  intros Hp Hr Hc.
  assert (G : forall n q, List.length (pt_rest q) <= n -> Reach data q -> utf8_text (pt_rest q)).
  { induction n as [|n IH]; intros q Hn Hq.
    - destruct (pt_rest q); [apply utf8_nil|cbn in Hn; lia].
    - destruct (pt_rest q) eqn:E; [apply utf8_nil|]. rewrite <- E.
      assert (Hq0 : pt_rest q <> []) by congruence.
      assert (B : bad_rune (pt_rest q) = false).
      { apply Hc; auto. apply (reach_steps_le data); auto. pose proof (reach_len _ _ Hp) as L1. rewrite Hr in L1.
        pose proof (reach_len _ _ Hq). cbn in L1. lia. }
      destruct (decode_good _ Hq0 B) as (r & t & S & Et & D). rewrite Et. apply utf8_cons; [exact S|].
      assert (Ea : pt_rest (advance_pt q) = t).
      { rewrite advance_rest, D, Et. cbn [snd]. rewrite skipn_app, skipn_all, Nat.sub_diag. reflexivity. }
      rewrite <- Ea. apply IH; [|now apply reach_next].
      rewrite advance_rest, skipn_length. pose proof (decode_width _ Hq0). rewrite E in *. cbn [List.length] in *. lia. }
  specialize (G (List.length data) (start_pt data)). rewrite start_rest in G. apply G; [lia|constructor].
Qed.

Lemma parse_utf8 opts ff data c ff' :
  k_entry (config_of opts) = "init"%string -> k_invalid (config_of opts) = false ->
  parse opts ff data = (Returned (VConfig c) [], ff') -> utf8_text data.
Proof.
  intros He Hv. pose proof (parse_run opts ff data) as P. rewrite He, find_init in P. destruct P as (r & R & ->).
  set (o := settings_of (config_of opts)) in *.
  destruct r as [v en s|en s|m x s|]; cbn; try discriminate.
  2: destruct (k_recover _); discriminate.
  intros H.
  assert (Es : s_errs s = []) by congruence.
  assert (Hs : Reach data (s_pt (init_st o ff data))) by (rewrite init_st_pt; constructor).
  pose proof (init_ok_eof _ _ _ _ _ _ Hs R) as E.
  assert (L : lits_ok gen_init = true) by exact (forallb_rule "init" gen_init gen_lits_ok find_init).
  pose proof (ev_track _ _ data gen_lits_ok _ _ _ _ _ R L Hs) as T. cbn in T.
  apply (clean_utf8 data (s_pt s)); [eapply steps_reach; eauto|exact E|].
  apply (proj1 (keeps_all o gen_grammar data gen_lits_ok Hv) _ _ _ _ _ R L Hs Es).
  apply (ok_errs o gen_grammar) in R; [|exact Es].
  intros q Hq St. rewrite init_st_pt in St. apply reach_steps in Hq.
  assert (q = start_pt data).
  { pose proof (steps_off _ _ Hq). pose proof (steps_off _ _ St). symmetry. apply steps_eq; auto. lia. }
  subst q. rewrite start_rest. unfold init_st, check_rune in R. cbn in R. rewrite start_rest, Hv in R. cbn in R.
  rewrite andb_true_r in R. destruct (bad_rune data); [discriminate|reflexivity].
Qed.

Lemma reach_good data p : utf8_text data -> Reach data p -> utf8_text (pt_rest p).
Proof.
  intros U. induction 1 as [|p H IH Hn]; [now rewrite start_rest|].
  rewrite advance_rest. apply utf8_inv in IH as [E|(r & t & S & E & Ut)]; [congruence|].
  rewrite E, decode_encode by exact S. cbn [snd]. rewrite skipn_app, skipn_all, Nat.sub_diag. exact Ut.
Qed.
Lemma utf8_not_bad s : utf8_text s -> bad_rune s = false.
Proof.
  intros H. apply utf8_inv in H as [->|(r & t & S & -> & _)]; [reflexivity|]. now apply encode_not_bad.
Qed.

(** Conversely, on valid UTF-8 the option AllowInvalidUTF8 changes nothing. *)
Section Lenient.
  Variables o o' : settings.
  Hypothesis Ho : o_ignore o = o_ignore o' /\ o_warn o = o_warn o' /\ o_max o = o_max o'.
  Variable g : grammar.
  Variable data : bytes.
  Hypothesis Hg : grammar_lits_ok g = true.
  Hypothesis Hu : utf8_text data.

  Lemma over_same s : over_limit o s = over_limit o' s.
  Proof. destruct Ho as (_ & _ & E). unfold over_limit. now rewrite E. Qed.
  Lemma check_same rule s : Reach data (s_pt s) -> check_rune o rule s = check_rune o' rule s.
  Proof. intros H. unfold check_rune. now rewrite (utf8_not_bad _ (reach_good _ _ Hu H)). Qed.
  Lemma read_same rule s : Reach data (s_pt s) -> pt_rest (s_pt s) <> [] -> read o rule s = read o' rule s.
  Proof. intros H Hn. unfold read. apply check_same. cbn. now apply reach_next. Qed.
  Lemma lit_same rule want p en rs : forall s, forallb (fun r => negb (r =? RuneError)%N) rs = true -> Reach data (s_pt s) ->
    lit_loop o rule want p rs en s = lit_loop o' rule want p rs en s.
  Proof.
    induction rs as [|r rs IH]; intros s Hr Hs; cbn [lit_loop]; [reflexivity|].
    cbn in Hr. apply andb_true_iff in Hr as [Hr1 Hr2].
    destruct (N.eqb_spec (fst (decode_rune (pt_rest (s_pt s)))) r) as [E|E]; [|reflexivity].
    assert (Hn : pt_rest (s_pt s) <> []).
    { apply decode_nonempty. rewrite E. now apply negb_true_iff, N.eqb_neq in Hr1. }
    rewrite <- read_same by auto. apply IH; auto. rewrite read_pt. now apply reach_next.
  Qed.
  Lemma prim_same rule e en s : lits_ok e = true -> Reach data (s_pt s) -> prim_out o g rule e en s = prim_out o' g rule e en s.
  Proof.
    intros He Hs. destruct e; cbn [prim_out]; try reflexivity.
    - destruct c; cbn; [reflexivity|]. destruct Ho as (_ & -> & _). reflexivity.
    - destruct (at_eof s) eqn:A; [reflexivity|]. rewrite read_same; auto. rewrite <- at_eof_spec. congruence.
    - destruct (at_eof s) eqn:A; [reflexivity|]. cbn [negb andb]. destruct (class_match _ _ _ _); [|reflexivity].
      rewrite read_same; auto. rewrite <- at_eof_spec. congruence.
    - f_equal. now apply lit_same.
  Qed.

  Lemma lenient_all :
    (forall rule e en s r, ev o g rule e en s r -> lits_ok e = true -> Reach data (s_pt s) -> ev o' g rule e en s r) /\
    (forall rule pt w es acc en s r, evs o g rule pt w es acc en s r -> forallb lits_ok es = true -> Reach data (s_pt s) ->
       evs o' g rule pt w es acc en s r) /\
    (forall rule es en s r, evc o g rule es en s r -> forallb lits_ok es = true -> Reach data (s_pt s) -> evc o' g rule es en s r) /\
    (forall rule e acc en s r, evt o g rule e acc en s r -> lits_ok e = true -> Reach data (s_pt s) -> evt o' g rule e acc en s r).
  Proof.
    apply ev_mutind.
    - intros. apply ev_limit. now rewrite <- over_same.
    - intros rule e en s r L P He Hs. apply ev_prim; [now rewrite <- over_same|]. now rewrite <- prim_same.
    - intros rule a e en s r L _ IH He Hs. replace (act_out o rule a (tick s) r) with (act_out o' rule a (tick s) r).
      + apply ev_act; [now rewrite <- over_same|]. exact (IH He Hs).
      + unfold act_out. destruct Ho as (-> & _). reflexivity.
    - intros. apply ev_lab; [now rewrite <- over_same|auto].
    - intros. apply ev_not; [now rewrite <- over_same|auto].
    - intros. apply ev_opt; [now rewrite <- over_same|auto].
    - intros rule name e en s r L F _ IH _ Hs. eapply ev_ref; [now rewrite <- over_same|exact F|]. apply IH; [|exact Hs].
      apply find_rule_in in F. unfold grammar_lits_ok in Hg. rewrite forallb_forall in Hg. exact (Hg _ F).
    - intros. apply ev_seq; [now rewrite <- over_same|auto].
    - intros. apply ev_choice; [now rewrite <- over_same|auto].
    - intros. apply ev_star; [now rewrite <- over_same|auto].
    - intros. apply ev_plus; [now rewrite <- over_same|auto].
    - intros. constructor.
    - intros rule pt w e es acc en s v en' s' r H1 IH1 _ IH2 He Hs. cbn in He. apply andb_true_iff in He as [He1 He2].
      eapply evs_ok; [exact (IH1 He1 Hs)|]. apply IH2; [exact He2|].
      pose proof (ev_track o g data Hg _ _ _ _ _ H1 He1 Hs) as T. eapply steps_reach; eauto.
    - intros rule pt w e es acc en s en' s' _ IH He Hs. cbn in He. apply andb_true_iff in He as [He1 He2]. apply evs_fail. auto.
    - intros rule pt w e es acc en s m x s' _ IH He Hs. cbn in He. apply andb_true_iff in He as [He1 He2]. apply evs_panic. auto.
    - intros. constructor.
    - intros rule e es en s v en' s' _ IH He Hs. cbn in He. apply andb_true_iff in He as [He1 He2]. eapply evc_ok; eauto.
    - intros rule e es en s en' s' r H1 IH1 _ IH2 He Hs. cbn in He. apply andb_true_iff in He as [He1 He2].
      eapply evc_next; [exact (IH1 He1 Hs)|]. apply IH2; [exact He2|].
      destruct (ev_track o g data Hg _ _ _ _ _ H1 He1 Hs) as [T _]. cbn. now rewrite T.
    - intros rule e es en s m x s' _ IH He Hs. cbn in He. apply andb_true_iff in He as [He1 He2]. apply evc_panic. auto.
    - intros rule e acc en s en' s' _ IH He Hs. eapply evt_stop; eauto.
    - intros rule e acc en s v en' s' r H1 IH1 _ IH2 He Hs. eapply evt_more; [exact (IH1 He Hs)|]. apply IH2; [exact He|].
      pose proof (ev_track o g data Hg _ _ _ _ _ H1 He Hs) as T. eapply steps_reach; eauto.
    - intros rule e acc en s m x s' _ IH He Hs. apply evt_panic. auto.
  Qed.
End Lenient.

Lemma parse_lenient opts x ff data : utf8_text data ->
  parse (opts ++ [OptAllowInvalidUTF8 x]) ff data = parse opts ff data.
Proof.
  intros U. pose proof (parse_run opts ff data) as P. pose proof (parse_run (opts ++ [OptAllowInvalidUTF8 x]) ff data) as P'.
  assert (Ek : config_of (opts ++ [OptAllowInvalidUTF8 x]) =
    PCfg (k_max (config_of opts)) (k_entry (config_of opts)) x (k_recover (config_of opts)) (k_ignore (config_of opts)) (k_warn (config_of opts))).
  { unfold config_of. now rewrite fold_left_app. }
  rewrite Ek in P'. cbn [k_entry] in P'.
  destruct (find_rule (k_entry (config_of opts)) gen_grammar) as [e|] eqn:F; [|congruence].
  destruct P as (r & R & ->), P' as (r' & R' & ->).
  assert (r' = r); [|subst; reflexivity].
  set (o := settings_of (config_of opts)) in *. set (o' := settings_of (PCfg _ _ x _ _ _)) in *.
  assert (Ho : o_ignore o' = o_ignore o /\ o_warn o' = o_warn o /\ o_max o' = o_max o) by (repeat split).
  assert (Ei : init_st o' ff data = init_st o ff data).
  { unfold init_st. apply (check_same o' o data U). constructor. }
  rewrite Ei in R'. eapply ev_fun; [|exact R].
  apply (proj1 (lenient_all o' o Ho gen_grammar data gen_lits_ok U) _ _ _ _ _ R').
  - exact (forallb_rule _ e gen_lits_ok F).
  - rewrite init_st_pt. constructor.
Qed.
