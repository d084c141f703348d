(** The warnings about exceptional comments: distinct places in source order. *)
From Coq Require Import List NArith Bool String Arith Lia Sorted.
From Verif Require Import Bytes Utf8 F64 Ast Peg Actions Engine Parser GrammarGen PosFacts Run EngineFacts Termination Matches
  RunInv HistFacts Sim ParseFacts InputFacts ItoaFacts.
Import ListNotations.

(** A gap: comments and white space, the rule [_] of the grammar
    (logstash_config.peg:54-55) *)
Definition gap_expr : expr :=
  match gen_plugin with EAct _ (ESeq (_ :: _ :: EAct AStr e :: _)) => e | _ => EAny end.
Lemma astr_gap : Forall (fun x => match fst x with AStr => snd x = gap_expr | _ => True end) (grammar_acts gen_grammar).
Proof.
  set (is_astr := fun x : action * expr => match fst x with AStr => true | _ => false end).
  assert (E : map snd (filter is_astr (grammar_acts gen_grammar)) =
              repeat gap_expr (List.length (filter is_astr (grammar_acts gen_grammar)))) by (vm_compute; reflexivity).
  apply Forall_forall. intros [a e] H. cbn. destruct a; try exact I.
  assert (I1 : In e (map snd (filter is_astr (grammar_acts gen_grammar)))).
  { apply (in_map snd _ (AStr, e)). apply filter_In. split; [exact H|reflexivity]. }
  rewrite E in I1. now apply repeat_spec in I1.
Qed.

(** No state block and no rule inside *)
Fixpoint quiet (e : expr) : bool :=
  match e with
  | EAct _ e | ELab _ e | ENot e | EPlus e | EStar e | EOpt e => quiet e
  | EChoice l | ESeq l => forallb quiet l
  | EStateCode _ | ERef _ => false
  | _ => true
  end.
(** In every sequence the block warnComment directly follows a gap whose text
    was made the current text; it occurs nowhere else. *)
Fixpoint placed (e : expr) : bool :=
  match e with
  | EAct _ e | ELab _ e | ENot e | EPlus e | EStar e | EOpt e => placed e
  | EChoice l => forallb placed l
  | ESeq l =>
      (fix go (l : list expr) : bool :=
         match l with
         | [] => true
         | EAct AStr x :: (EStateCode SWarnComment :: l') => quiet x && go l'
         | e :: l' => placed e && go l'
         end) l
  | EStateCode SWarnComment => false
  | _ => true
  end.
Definition placed_seq (l : list expr) : bool := placed (ESeq l).
Lemma placed_seq_cons e l : placed_seq (e :: l) = true ->
  (placed e = true /\ placed_seq l = true) \/
  (exists x l', e = EAct AStr x /\ l = EStateCode SWarnComment :: l' /\ quiet x = true /\ placed_seq l' = true).
Proof.
  unfold placed_seq. destruct e as [a e| | | | | | | | | | | | |]; try (intros H; left; apply andb_true_iff; exact H).
  destruct a; try (intros H; left; apply andb_true_iff; exact H).
  destruct l as [|e2 l]; try (intros H; left; apply andb_true_iff; exact H).
  destruct e2 as [| |c| | | | | | | | | | |]; try (intros H; left; apply andb_true_iff; exact H).
  destruct c; try (intros H; left; apply andb_true_iff; exact H).
  intros H. right. cbn in H. apply andb_true_iff in H as [H1 H2]. eauto 6.
Qed.
Lemma gen_placed : forallb (fun x => placed (snd x)) gen_grammar = true.
Proof. vm_compute. reflexivity. Qed.

Section Warn.
  Variable o : settings.
  Variable g : grammar.
  Variable data : bytes.
  Hypothesis Hg : grammar_lits_ok g = true.
  Hypothesis Hp : forallb (fun x => placed (snd x)) g = true.
  Hypothesis Hgap : Forall (fun x => match fst x with AStr => snd x = gap_expr | _ => True end) (grammar_acts g).

  Definition warns_of (s : st) : list position := match s_warns s with Some l => l | None => [] end.

  (** A gap of the input with a comment: where it starts and its text *)
  Definition gap_at (p : position) (t : bytes) : Prop :=
    exists pre post, data = pre ++ t ++ post /\ p_off p = List.length pre /\ true_pos data p /\
      matches g gap_expr t /\ In HASH t.
  (** Gaps of the input before offset [k], from left to right, without overlap *)
  Inductive places : list position -> nat -> Prop :=
  | places_nil k : places [] k
  | places_snoc l k p t k' : places l k -> k <= p_off p -> gap_at p t -> p_off p + List.length t <= k' -> places (l ++ [p]) k'.
  Lemma places_le l k k' : places l k -> k <= k' -> places l k'.
  Proof. intros H. destruct H; intros L; [constructor|]. econstructor; eauto. lia. Qed.

  Definition fine (s : st) : Prop := places (warns_of s) (p_off (pt_pos (s_pt s))).
  Definition pending (s : st) : Prop :=
    exists p, Reach data p /\ Steps p (s_pt s) /\ s_cpos s = pt_pos p /\ s_ctext s = seg p (s_pt s) /\
      matches g gap_expr (seg p (s_pt s)) /\ places (warns_of s) (p_off (pt_pos p)).

  Definition ok_out (P : st -> Prop) (r : out) : Prop := match r with OOk _ _ s' => P s' | _ => True end.

  Lemma quiet_prim rule e en s v en' s' : quiet e = true -> prim_out o g rule e en s = Some (OOk v en' s') -> s_warns s' = s_warns s.
  Proof.
    destruct e; cbn; try discriminate; intros _ H.
    - destruct p; cbn in H; inversion H; reflexivity.
    - destruct (at_eof s); inversion H. now rewrite fail_at_warns, read_warns.
    - destruct (_ && _); inversion H. now rewrite fail_at_warns, read_warns.
    - injection H as H. assert (K : forall rs s0, lit_loop o rule want (s_pt s) rs en s0 = OOk v en' s' -> s_warns s' = s_warns s0).
      { clear. intros rs. induction rs as [|r rs IH]; cbn; intros s0 H.
        - inversion H. now rewrite fail_at_warns.
        - destruct (_ =? _)%N; [|discriminate]. apply IH in H. now rewrite H, read_warns. }
      now apply K in H.
  Qed.
  Lemma quiet_warns :
    (forall rule e en s r, ev o g rule e en s r -> lits_ok e = true -> Reach data (s_pt s) -> quiet e = true ->
       ok_out (fun s' => s_warns s' = s_warns s) r) /\
    (forall rule pt w es acc en s r, evs o g rule pt w es acc en s r -> forallb lits_ok es = true -> Reach data (s_pt s) ->
       forallb quiet es = true -> ok_out (fun s' => s_warns s' = s_warns s) r) /\
    (forall rule es en s r, evc o g rule es en s r -> forallb lits_ok es = true -> Reach data (s_pt s) ->
       forallb quiet es = true -> ok_out (fun s' => s_warns s' = s_warns s) r) /\
    (forall rule e acc en s r, evt o g rule e acc en s r -> lits_ok e = true -> Reach data (s_pt s) -> quiet e = true ->
       ok_out (fun s' => s_warns s' = s_warns s) r).
  Proof.
    apply ev_mutind; try (intros; exact I).
    - intros rule e en s r _ H He Hs Hq. destruct r; try exact I. cbn. now apply quiet_prim in H.
    - intros rule a e en s r _ H IH He Hs Hq. specialize (IH He Hs Hq). destruct r; try exact I. cbn in *.
      destruct (run_action _ _ _ _ _ _); cbn; auto.
    - intros rule l e en s r _ H IH He Hs Hq. specialize (IH He Hs Hq). destruct r; auto.
    - intros rule e en s r _ H IH He Hs Hq. destruct r; cbn -[restore]; auto. now rewrite restore_warns.
    - intros rule e en s r _ H IH He Hs Hq. specialize (IH He Hs Hq).
      pose proof (ev_track o g data Hg _ _ _ _ _ H He Hs) as T. destruct r; cbn in *; auto. apply T.
    - intros rule n e en s r _ F H IH He Hs Hq. discriminate.
    - intros rule es en s r _ H IH He Hs Hq. exact (IH He Hs Hq).
    - intros rule es en s r _ H IH He Hs Hq. exact (IH He Hs Hq).
    - intros rule e en s r _ H IH He Hs Hq. exact (IH He Hs Hq).
    - intros rule e en s r _ H IH He Hs Hq. specialize (IH He Hs Hq). destruct r; cbn; auto. destruct v; cbn; auto. destruct l; cbn; auto.
    - intros. reflexivity.
    - intros rule pt w e es acc en s v en' s' r H1 IH1 H2 IH2 He Hs Hq. cbn in He, Hq.
      apply andb_true_iff in He as [He1 He2]. apply andb_true_iff in Hq as [Hq1 Hq2].
      specialize (IH1 He1 Hs Hq1). pose proof (ev_track o g data Hg _ _ _ _ _ H1 He1 Hs) as T. cbn in *.
      specialize (IH2 He2 (steps_reach _ _ _ Hs T) Hq2). destruct r; cbn in *; auto. congruence.
    - intros rule e es en s v en' s' H1 IH1 He Hs Hq. cbn in He, Hq.
      apply andb_true_iff in He as [He1 He2]. apply andb_true_iff in Hq as [Hq1 Hq2]. exact (IH1 He1 Hs Hq1).
    - intros rule e es en s en' s' r H1 IH1 H2 IH2 He Hs Hq. cbn in He, Hq.
      apply andb_true_iff in He as [He1 He2]. apply andb_true_iff in Hq as [Hq1 Hq2].
      destruct (ev_track o g data Hg _ _ _ _ _ H1 He1 Hs) as [T _]. cbn in IH2. rewrite T in IH2. exact (IH2 He2 Hs Hq2).
    - intros rule e acc en s en' s' H1 IH1 He Hs Hq. destruct (ev_track o g data Hg _ _ _ _ _ H1 He Hs) as [_ T]. exact T.
    - intros rule e acc en s v en' s' r H1 IH1 H2 IH2 He Hs Hq.
      specialize (IH1 He Hs Hq). pose proof (ev_track o g data Hg _ _ _ _ _ H1 He Hs) as T. cbn in *.
      specialize (IH2 He (steps_reach _ _ _ Hs T) Hq). destruct r; cbn in *; auto. congruence.
  Qed.

  Lemma fine_steps s s' : s_warns s' = s_warns s -> Steps (s_pt s) (s_pt s') -> fine s -> fine s'.
  Proof. intros E St F. unfold fine, warns_of in *. rewrite E. eapply places_le; [exact F|]. now apply steps_off. Qed.

  Lemma gap_of p q : Reach data p -> Steps p q -> matches g gap_expr (seg p q) -> In HASH (seg p q) -> gap_at (pt_pos p) (seg p q).
  Proof.
    intros R St M H. exists (firstn (p_off (pt_pos p)) data), (pt_rest q).
    destruct (steps_rest _ _ St) as [E1 E2]. rewrite <- E1, (reach_rest _ _ R), firstn_skipn.
    split; [reflexivity|]. split; [|split; [now apply reach_true_pos|auto]].
    rewrite firstn_length_le; [reflexivity|]. pose proof (reach_len _ _ R). lia.
  Qed.

  Definition seq_ready (es : list expr) (s : st) : Prop :=
    (placed_seq es = true /\ fine s) \/
    (exists es', es = EStateCode SWarnComment :: es' /\ placed_seq es' = true /\ pending s).

  Lemma warn_pending rule en s v en' s' : pending s -> ev o g rule (EStateCode SWarnComment) en s (OOk v en' s') -> fine s'.
  Proof.
    intros (p & R & St & C1 & C2 & M & Pl) H. eapply inv_prim in H; [|reflexivity]. destruct H as [[_ H]|[_ H]]; [discriminate|].
    inversion H; subst. unfold run_state. cbn [tick s_ctext]. rewrite <- C2 in M. cbn [s_ctext set_cnt].
    assert (L := steps_off _ _ St). destruct (_ && _) eqn:B.
    - apply andb_true_iff in B as [_ B]. apply existsb_exists in B as (c & B1 & B2). apply N.eqb_eq in B2. subst c.
      unfold fine, warns_of. cbn. rewrite C1. rewrite C2 in B1, M.
      apply (places_snoc _ (p_off (pt_pos p)) _ (seg p (s_pt s))); auto.
      + now apply gap_of.
      + destruct (steps_rest _ _ St) as [_ ->]. lia.
    - unfold fine, warns_of in *. cbn. eapply places_le; [exact Pl|exact L].
  Qed.

  Lemma warn_all :
    (forall rule e en s r, ev o g rule e en s r -> in_g g e -> Reach data (s_pt s) -> placed e = true -> fine s -> ok_out fine r) /\
    (forall rule pt w es acc en s r, evs o g rule pt w es acc en s r -> Forall (in_g g) es -> Reach data (s_pt s) ->
       seq_ready es s -> ok_out fine r) /\
    (forall rule es en s r, evc o g rule es en s r -> Forall (in_g g) es -> Reach data (s_pt s) ->
       forallb placed es = true -> fine s -> ok_out fine r) /\
    (forall rule e acc en s r, evt o g rule e acc en s r -> in_g g e -> Reach data (s_pt s) -> placed e = true -> fine s ->
       ok_out fine r).
  Proof.
    apply ev_mutind; try (intros; exact I).
    - intros rule e en s r L H [He Ha] Hs Hq Fs. destruct r as [v en' s'| | |]; try exact I. cbn.
      pose proof (ev_track o g data Hg rule e en s _ (ev_prim _ _ _ _ _ _ _ L H) He Hs) as T. cbn in T.
      destruct e; cbn in H; try discriminate.
      + apply (fine_steps s); auto. destruct p; cbn in H; inversion H; reflexivity.
      + destruct c; [|discriminate]. inversion H; subst. unfold fine, warns_of in *. cbn. destruct (s_warns s) eqn:E; cbn; [now rewrite E in *|constructor].
      + apply (fine_steps s); auto. destruct (at_eof _); inversion H. now rewrite fail_at_warns, read_warns.
      + apply (fine_steps s); auto. destruct (_ && _); inversion H. now rewrite fail_at_warns, read_warns.
      + apply (fine_steps s); auto. apply (quiet_prim rule (ELit want runes) en (tick s) v en'); [reflexivity|exact H].
      + destruct (find_rule name g); discriminate.
    - intros rule a e en s r _ H IH [He Ha] Hs Hq Fs.
      assert (In1 : in_g g e) by (split; [exact He|intros x Hx; apply Ha; now right]).
      specialize (IH In1 Hs Hq Fs). destruct r; try exact I. cbn in *.
      destruct (run_action _ _ _ _ _ _); cbn; auto.
    - intros rule l e en s r _ H IH He Hs Hq Fs. specialize (IH He Hs Hq Fs). destruct r; auto.
    - intros rule e en s r _ H IH He Hs Hq Fs.
      pose proof (ev_track o g data Hg _ _ _ _ _ H (proj1 He) Hs) as T.
      destruct r; unfold not_out; cbn -[restore]; auto. apply (fine_steps s); auto; [now rewrite restore_warns|].
      rewrite (restore_pt data); [constructor| |]; auto. cbn in *. destruct T as [-> _]. auto.
    - intros rule e en s r _ H IH He Hs Hq Fs. specialize (IH He Hs Hq Fs).
      pose proof (ev_track o g data Hg _ _ _ _ _ H (proj1 He) Hs) as T. destruct r; cbn in *; auto.
      destruct T as [T1 T2]. apply (fine_steps s); auto. rewrite T1. constructor.
    - intros rule n e en s r _ F H IH He Hs Hq Fs.
      specialize (IH (in_g_rule g Hg _ _ F) Hs).
      assert (placed e = true). { apply find_rule_in in F. rewrite forallb_forall in Hp. exact (Hp _ F). }
      specialize (IH H0 Fs). destruct r; auto.
    - intros rule es en s r _ H IH [He Ha] Hs Hq Fs. apply IH; auto. { now apply in_g_list. } left. auto.
    - intros rule es en s r _ H IH [He Ha] Hs Hq Fs. apply IH; auto. now apply in_g_list.
    - intros rule e en s r _ H IH He Hs Hq Fs. exact (IH He Hs Hq Fs).
    - intros rule e en s r _ H IH He Hs Hq Fs. specialize (IH He Hs Hq Fs). destruct r; cbn; auto. destruct v; cbn; auto. destruct l; cbn; auto.
    - intros rule pt w acc en s _ _ [[_ F]|(es' & E & _)]; [exact F|discriminate].
    - intros rule pt w e es acc en s v en' s' r H1 IH1 H2 IH2 He Hs R.
      inversion He as [|? ? He1 He2]; subst.
      pose proof (ev_track o g data Hg _ _ _ _ _ H1 (proj1 He1) Hs) as T. cbn in T.
      assert (Hs' := steps_reach _ _ _ Hs T).
      apply IH2; auto. destruct R as [[R1 R2]|(es' & E & R1 & R2)].
      + apply placed_seq_cons in R1 as [[R3 R4]|(x & l' & -> & -> & R3 & R4)].
        * left. split; [exact R4|]. exact (IH1 He1 Hs R3 R2).
        * right. exists l'. split; [reflexivity|]. split; [exact R4|].
          apply inv_act in H1 as [[_ K]|[_ (r1 & H1 & K)]]; [discriminate|].
          destruct r1 as [v1 en1 s1| | |]; try discriminate. destruct He1 as [He1 Ha1]. cbn in He1.
          assert (Ex : x = gap_expr).
          { rewrite Forall_forall in Hgap. exact (Hgap (AStr, x) (Ha1 _ (or_introl eq_refl))). }
          pose proof (ev_track o g data Hg _ _ _ _ _ H1 He1 Hs) as T1.
          pose proof (ev_matches o g data Hg _ _ _ _ _ _ _ H1 He1 Hs) as M1.
          pose proof (proj1 quiet_warns _ _ _ _ _ H1 He1 Hs R3) as W1. cbn in T1, M1, W1.
          cbn in K. inversion K; subst. exists (s_pt s). cbn. rewrite slice_seg. cbn.
          split; [exact Hs|]. split; [exact T1|]. split; [reflexivity|]. split; [reflexivity|]. split; [exact M1|].
          unfold fine, warns_of in *. cbn. rewrite W1. exact R2.
      + inversion E; subst. left. split; [exact R1|]. eapply warn_pending; eauto.
    - intros rule e es en s v en' s' H1 IH1 He Hs Hq Fs. cbn in Hq. apply andb_true_iff in Hq as [Hq1 Hq2].
      inversion He; subst. exact (IH1 ltac:(assumption) Hs Hq1 Fs).
    - intros rule e es en s en' s' r H1 IH1 H2 IH2 He Hs Hq Fs. cbn in Hq. apply andb_true_iff in Hq as [Hq1 Hq2].
      inversion He as [|? ? He1 He2]; subst. destruct (ev_track o g data Hg _ _ _ _ _ H1 (proj1 He1) Hs) as [T1 T2].
      cbn in IH2. rewrite T1 in IH2. apply IH2; auto. apply (fine_steps s); auto. cbn. rewrite T1. constructor.
    - intros rule e acc en s en' s' H1 IH1 He Hs Hq Fs.
      destruct (ev_track o g data Hg _ _ _ _ _ H1 (proj1 He) Hs) as [T1 T2]. apply (fine_steps s); auto. rewrite T1. constructor.
    - intros rule e acc en s v en' s' r H1 IH1 H2 IH2 He Hs Hq Fs.
      specialize (IH1 He Hs Hq Fs). pose proof (ev_track o g data Hg _ _ _ _ _ H1 (proj1 He) Hs) as T. cbn in *.
      exact (IH2 He (steps_reach _ _ _ Hs T) Hq IH1).
  Qed.
End Warn.

Lemma parse_places opts ff data c errs ff' :
  k_entry (config_of opts) = "init"%string ->
  parse opts ff data = (Returned (VConfig c) errs, ff') ->
  exists ps, cf_warnings c = map warning_text ps /\ places gen_grammar data ps (List.length data).
Proof.
  intros He H. pose proof (parse_run opts ff data) as P. rewrite He, find_init in P. destruct P as (r & R & E).
  rewrite E in H. destruct r as [v en s'|en s'|m x s'|]; cbn in H; try discriminate.
  2: { destruct (k_recover _); discriminate. }
  inversion H; subst. clear H E. set (o := settings_of _) in *.
  assert (Hs : Reach data (s_pt (init_st o ff data))) by (rewrite init_st_pt; constructor).
  pose proof (proj1 (warn_all o gen_grammar data gen_lits_ok gen_placed astr_gap) _ _ _ _ _ R) as K. cbn in K.
  assert (F : fine gen_grammar data s').
  { apply K; auto.
    - apply (in_g_rule gen_grammar gen_lits_ok "init"). exact find_init.
    - unfold fine, warns_of, init_st, check_rune. destruct (_ && _); cbn; constructor. }
  pose proof (ev_track o gen_grammar data gen_lits_ok _ _ _ _ _ R eq_refl Hs) as T. cbn in T.
  assert (Rs := steps_reach _ _ _ Hs T). pose proof (reach_len _ _ Rs) as Ln.
  exists (warns_of s'). split.
  - apply init_run in R as [[_ (s1 & R & _)]|[_ (r1 & _ & R)]]; [discriminate|].
    destruct r1 as [v1 en1 s1| | |]; try discriminate. cbn in R. unfold act_ret_config in R. inversion R; subst.
    unfold warns_of. cbn. destruct (s_warns s1); reflexivity.
  - eapply places_le; [exact F|]. lia.
Qed.

(** The same, as a list of gaps *)
Lemma places_gaps g data ps k : places g data ps k ->
  exists gaps, ps = map fst gaps /\ Forall (fun x => gap_at g data (fst x) (snd x)) gaps /\
    StronglySorted (fun x y => p_off (fst x) + List.length (snd x) <= p_off (fst y)) gaps /\
    Forall (fun x => p_off (fst x) + List.length (snd x) <= k) gaps.
Proof.
  induction 1 as [k|l k p t k' H IH L G L'].
  - exists []. repeat constructor.
  - destruct IH as (gaps & -> & F & S & B). exists (gaps ++ [(p, t)]). rewrite map_app. split; [reflexivity|].
    split; [apply Forall_app; split; [exact F|repeat constructor; exact G]|]. split.
    + clear F G H. induction S as [|x gs S IHS Hx]; [repeat constructor|]. inversion B; subst. cbn. constructor; [auto|].
      apply Forall_app. split; [exact Hx|]. repeat constructor. cbn. lia.
    + apply Forall_app. split; [|repeat constructor; exact L'].
      eapply Forall_impl; [|exact B]. cbn. lia.
Qed.

(** Different places have different texts. *)
Lemma warning_text_off p q : warning_text p = warning_text q -> p_off p = p_off q.
Proof.
  unfold warning_text, position_string. intros H. apply app_inv_head in H. cbn in H.
  apply (digits_sep _ _ 58) in H; [|apply itoa_digit..|reflexivity]. destruct H as [_ H].
  apply (digits_sep _ _ 32) in H; [|apply itoa_digit..|reflexivity]. destruct H as [_ H].
  inversion H as [H1]. apply (digits_sep _ _ 93) in H1; [|apply itoa_digit..|reflexivity]. destruct H1 as [H1 _]. now apply itoa_inj.
Qed.
Lemma gaps_nodup g data gaps : Forall (fun x => gap_at g data (fst x) (snd x)) gaps ->
  StronglySorted (fun x y => p_off (fst x) + List.length (snd x) <= p_off (fst y)) gaps ->
  NoDup (map (fun x => warning_text (fst x)) gaps).
Proof.
  intros F S. induction S as [|x gs S IH Hx]; cbn; [constructor|]. inversion F as [|? ? G F']; subst. constructor; [|auto].
  intros I. apply in_map_iff in I as (y & E & I). apply warning_text_off in E.
  rewrite Forall_forall in Hx. specialize (Hx y I). cbn in Hx.
  destruct G as (pre & post & _ & _ & _ & _ & Hh). destruct (snd x); [elim Hh|]. cbn in Hx. lia.
Qed.
