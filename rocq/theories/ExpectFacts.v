(** What the no-match error lists, and the texts of error lists. *)
From Coq Require Import List NArith Bool String Arith Lia Sorting.Sorted Sorting.Permutation.
From Verif Require Import Bytes Utf8 F64 Ast Peg Actions Engine Parser GrammarGen QuoteFacts PosFacts Run EngineFacts
  Termination Matches RunInv Sim HistFacts ParseFacts ErrFacts.
Import ListNotations.

(** ** Specification *)

(** The runes at the start of a text *)
Inductive begins_with : list N -> bytes -> Prop :=
| bw_nil t : begins_with [] t
| bw_cons r rs t : fst (decode_rune t) = r -> begins_with rs (skipn (snd (decode_rune t)) t) -> begins_with (r :: rs) t.

(** A terminal of the grammar matches at the start of a text *)
Definition begins (e : expr) (t : bytes) : Prop :=
  match e with
  | EAny => t <> []
  | EClass _ chars ranges inv => t <> [] /\ class_match chars ranges inv (fst (decode_rune t)) = true
  | ELit _ rs => begins_with rs t
  | _ => False
  end.
Definition display (e : expr) : option string :=
  match e with EAny => Some "."%string | EClass w _ _ _ => Some w | ELit w _ => Some w | _ => None end.
Fixpoint terms (e : expr) : list expr :=
  match e with
  | EAct _ e | ELab _ e | ENot e | EPlus e | EStar e | EOpt e => terms e
  | EChoice l | ESeq l => flat_map terms l
  | EAny | EClass _ _ _ _ | ELit _ _ => [e]
  | _ => []
  end.
Definition grammar_terms (g : grammar) : list expr := flat_map (fun x => terms (snd x)) g.

(** [w] names a terminal that does not match at [off], or, with an exclamation
    mark, one that does. *)
Definition expectation (g : grammar) (data : bytes) (off : nat) (w : bytes) : Prop :=
  exists t d, In t (grammar_terms g) /\ display t = Some d /\
    ((w = b d /\ ~ begins t (skipn off data)) \/ (w = b "!" ++ b d /\ begins t (skipn off data))).

(** ** The invariant *)
Section Expect.
  Variable o : settings.
  Variable g : grammar.
  Variable data : bytes.
  Hypothesis Hg : grammar_lits_ok g = true.

  Record xinv (s : st) : Prop := XInv
    { x_exp : Forall (expectation g data (p_off (s_mfpos s))) (s_mfexp s);
      x_nil : s_mfexp s = [] -> s_mfpos s = Pos 1 1 0 }.
  Lemma xinv_same s s' : s_mfexp s' = s_mfexp s -> s_mfpos s' = s_mfpos s -> xinv s -> xinv s'.
  Proof. intros E1 E2 [A B]. constructor; rewrite ?E1, ?E2; auto. Qed.

  Definition fine (e : expr) : Prop := lits_ok e = true /\ incl (terms e) (grammar_terms g).
  Lemma fine_list es : forallb lits_ok es = true -> incl (flat_map terms es) (grammar_terms g) -> Forall fine es.
  Proof.
    intros H1 H2. rewrite forallb_forall in H1. apply Forall_forall. intros e He. split; [auto|].
    intros x Hx. apply H2. apply in_flat_map. eauto.
  Qed.
  Lemma fine_rule n e : find_rule n g = Some e -> fine e.
  Proof.
    intros F. apply find_rule_in in F. split.
    - unfold grammar_lits_ok in Hg. rewrite forallb_forall in Hg. exact (Hg _ F).
    - intros x Hx. unfold grammar_terms. apply in_flat_map. exists (n, e). auto.
  Qed.

  Lemma x_fail_at (x : bool) p d t s : In t (grammar_terms g) -> display t = Some d -> Reach data p ->
    (if x then begins t (pt_rest p) else ~ begins t (pt_rest p)) -> xinv s -> xinv (fail_at x (pt_pos p) d s).
  Proof.
    intros Ht Hd Hp Hb I. unfold fail_at. destruct (Bool.eqb_spec x (s_mfinv s)) as [<-|]; [|exact I].
    destruct (Nat.ltb_spec (p_off (pt_pos p)) (p_off (s_mfpos s))) as [_|L]; [exact I|].
    assert (N : expectation g data (p_off (pt_pos p)) (if x then b "!" ++ b d else b d)).
    { exists t, d. split; [exact Ht|]. split; [exact Hd|]. rewrite <- (reach_rest _ _ Hp). destruct x; [right|left]; auto. }
    destruct (Nat.ltb_spec (p_off (s_mfpos s)) (p_off (pt_pos p))) as [L2|L2]; constructor; cbn [s_mfpos s_mfexp set_mf].
    - now apply Forall_cons.
    - intros K. discriminate K.
    - apply Forall_app. split; [exact (x_exp s I)|]. apply Forall_cons; [|constructor].
      now replace (p_off (s_mfpos s)) with (p_off (pt_pos p)) by lia.
    - intros K. destruct (s_mfexp s); discriminate K.
  Qed.
  Lemma x_read rule s : xinv s -> xinv (read o rule s).
  Proof. intros I. apply read_cases; [|intros]; (eapply xinv_same; [..|exact I]; reflexivity). Qed.
  Lemma x_restore p s : xinv s -> xinv (restore p s).
  Proof. intros I. unfold restore. destruct (_ =? _); [exact I|]. eapply xinv_same; [..|exact I]; reflexivity. Qed.

  Lemma x_lit rule want rs0 p rs en : In (ELit want rs0) (grammar_terms g) -> Reach data p -> forall s,
    (begins_with rs0 (pt_rest p) <-> begins_with rs (pt_rest (s_pt s))) ->
    xinv s -> out_st (lit_loop o rule want p rs en s) xinv.
  Proof.
    intros Ht Hp. induction rs as [|r rs IH]; intros s Hb I; cbn [lit_loop].
    - cbn. apply (x_fail_at true p want (ELit want rs0)); auto. cbn. apply Hb. constructor.
    - destruct (N.eqb_spec (fst (decode_rune (pt_rest (s_pt s)))) r) as [E|E].
      + apply IH; [|now apply x_read]. rewrite read_pt, advance_rest, Hb. split; intros H.
        * now inversion H; subst.
        * now constructor.
      + cbn. apply x_restore. apply (x_fail_at false p want (ELit want rs0)); auto. cbn. rewrite Hb. intros H. inversion H; subst. congruence.
  Qed.
  Lemma x_prim rule e en s r : fine e -> Reach data (s_pt s) ->
    prim_out o g rule e en s = Some r -> xinv s -> out_st r xinv.
  Proof.
    intros [He Hi] Hs H I.
    assert (At : at_eof s = true <-> pt_rest (s_pt s) = []) by apply at_eof_spec.
    destruct e; cbn [prim_out] in H; try discriminate H; try (injection H as <-).
    - destruct p; cbn; (eapply xinv_same; [..|exact I]); try reflexivity;
      (unfold push_error; destruct (s_ff s); [reflexivity|]; destruct (_ <? _); [reflexivity|];
        destruct (_ =? _); [|reflexivity]; now destruct (existsb _ _)).
    - destruct c; cbn; [destruct (s_warns s)|destruct (_ && _)]; (eapply xinv_same; [..|exact I]; reflexivity).
    - assert (In EAny (grammar_terms g)) by (apply Hi; now left).
      destruct (at_eof s) eqn:E; cbn.
      + apply (x_fail_at false _ _ EAny); auto. cbn. intros K. apply K. now apply At.
      + apply (x_fail_at true _ _ EAny); auto using x_read. cbn. intros K. apply At in K. congruence.
    - assert (In (EClass val chars ranges inverted) (grammar_terms g)) by (apply Hi; now left).
      destruct (at_eof s) eqn:E; cbn [negb andb].
      + cbn. apply (x_fail_at false _ _ (EClass val chars ranges inverted)); auto. cbn. intros [K _]. apply K. now apply At.
      + destruct (class_match _ _ _ _) eqn:C; cbn.
        * apply (x_fail_at true _ _ (EClass val chars ranges inverted)); auto using x_read. cbn. split; [|exact C]. intros K. apply At in K. congruence.
        * apply (x_fail_at false _ _ (EClass val chars ranges inverted)); auto. cbn. intros [_ K]. congruence.
    - apply (x_lit rule want runes); auto; [|tauto]. apply Hi. now left.
    - destruct (find_rule name g); [discriminate|]. injection H as <-. cbn. eapply xinv_same; [..|exact I]; reflexivity.
  Qed.

  Lemma x_all :
    (forall rule e en s r, ev o g rule e en s r -> fine e -> Reach data (s_pt s) -> xinv s -> out_st r xinv) /\
    (forall rule pt w es acc en s r, evs o g rule pt w es acc en s r -> Forall fine es ->
       Reach data (s_pt s) -> xinv s -> out_st r xinv) /\
    (forall rule es en s r, evc o g rule es en s r -> Forall fine es -> Reach data (s_pt s) -> xinv s -> out_st r xinv) /\
    (forall rule e acc en s r, evt o g rule e acc en s r -> fine e -> Reach data (s_pt s) -> xinv s -> out_st r xinv).
  Proof.
    assert (T : forall s, xinv s -> xinv (tick s)) by (intros s I; eapply xinv_same; [..|exact I]; reflexivity).
    assert (W : forall w s, xinv s -> xinv (set_warns w s)) by (intros w s I; eapply xinv_same; [..|exact I]; reflexivity).
    assert (M : forall w s, xinv s -> xinv (set_mfinv w s)) by (intros w s I; eapply xinv_same; [..|exact I]; reflexivity).
    apply ev_mutind.
    - intros rule e en s L He Hs I. cbn. auto.
    - intros rule e en s r L P He Hs I. apply (x_prim rule e en (tick s)); auto.
    - intros rule a e en s r L H IH He Hs I. specialize (IH He Hs (T _ I)).
      destruct r as [v en' s'|en' s'|m x s'|]; cbn [act_out]; auto. cbn in IH.
      destruct (run_action _ _ _ _ _ _); cbn; (eapply xinv_same; [..|exact IH]; reflexivity).
    - intros rule l e en s r L H IH He Hs I. specialize (IH He Hs (T _ I)). destruct r; exact IH.
    - intros rule e en s r L H IH He Hs I. specialize (IH He Hs (M _ _ (T _ I))).
      destruct r as [v en' s'|en' s'|m x s'|]; unfold not_out; auto; cbn in *; apply x_restore; auto.
    - intros rule e en s r L H IH He Hs I. specialize (IH He Hs (T _ I)). destruct r; exact IH.
    - intros rule name e en s r L F H IH _ Hs I. specialize (IH (fine_rule _ _ F) Hs (T _ I)). destruct r; exact IH.
    - intros rule es en s r L H IH [He Hi] Hs I. apply IH; auto. now apply fine_list.
    - intros rule es en s r L H IH [He Hi] Hs I. apply IH; auto. now apply fine_list.
    - intros rule e en s r L H IH He Hs I. exact (IH He Hs (T _ I)).
    - intros rule e en s r L H IH He Hs I. specialize (IH He Hs (T _ I)).
      destruct r as [v en' s'|en' s'|m x s'|]; auto. cbn. destruct v; auto. destruct l; auto.
    - intros rule pt w acc en s He Hs I. exact I.
    - intros rule pt w e es acc en s v en' s' r H1 IH1 _ IH2 He Hs I. inversion He as [|? ? Hx Hy]; subst.
      pose proof (ev_track o g data Hg _ _ _ _ _ H1 (proj1 Hx) Hs) as Tr. specialize (IH1 Hx Hs I).
      apply IH2; auto. eapply steps_reach; eauto.
    - intros rule pt w e es acc en s en' s' _ IH He Hs I. inversion He as [|? ? Hx Hy]; subst. cbn. apply x_restore, W, IH; auto.
    - intros rule pt w e es acc en s m x s' _ IH He Hs I. inversion He as [|? ? Hx Hy]; subst. auto.
    - intros rule en s He Hs I. exact I.
    - intros rule e es en s v en' s' _ IH He Hs I. inversion He as [|? ? Hx Hy]; subst. exact (IH Hx Hs I).
    - intros rule e es en s en' s' r H1 IH1 _ IH2 He Hs I. inversion He as [|? ? Hx Hy]; subst.
      specialize (IH1 Hx Hs I). apply IH2; auto.
      destruct (ev_track o g data Hg _ _ _ _ _ H1 (proj1 Hx) Hs) as [Tr _]. cbn. now rewrite Tr.
    - intros rule e es en s m x s' _ IH He Hs I. inversion He as [|? ? Hx Hy]; subst. auto.
    - intros rule e acc en s en' s' _ IH He Hs I. exact (IH He Hs I).
    - intros rule e acc en s v en' s' r H1 IH1 _ IH2 He Hs I. specialize (IH1 He Hs I).
      pose proof (ev_track o g data Hg _ _ _ _ _ H1 (proj1 He) Hs) as Tr. apply IH2; auto. eapply steps_reach; eauto.
    - intros rule e acc en s m x s' _ IH He Hs I. auto.
  Qed.
End Expect.

(** ** Whole parses *)

Lemma parse_no_match opts ff data v errs ff' e : In (k_entry (config_of opts)) (map fst gen_grammar) ->
  parse opts ff data = (Returned v errs, ff') -> In e errs -> e_rule e = None -> e_msg e <> MText (b "invalid encoding") ->
  v = VNil /\ errs = [e] /\
  exists ws, e_msg e = MText (no_match_msg ws) /\ Forall (expectation gen_grammar data (p_off (e_pos e))) ws /\
    (k_entry (config_of opts) = "init"%string -> ws <> []).
Proof.
  intros He P H Hr Hm. destruct (find_rule (k_entry (config_of opts)) gen_grammar) as [x|] eqn:F.
  2: { exfalso. clear -He F. revert He F. induction gen_grammar as [|[n y] g IH]; cbn; [auto|].
       destruct (String.eqb_spec n (k_entry (config_of opts))); [discriminate|]. intros [Q|Q]; auto. }
  destruct (parse_final opts ff data x F) as (r & R & E & [I Q]). rewrite E in P.
  set (o := settings_of (config_of opts)) in *.
  assert (K : forall s, inv gen_grammar data (fun f => In f ff) s -> ~ In e (s_errs s)).
  { intros s [A _ _ _] Hf. rewrite Forall_forall in A. destruct (A e Hf) as (_ & _ & A3). auto. }
  assert (X : out_st r (xinv gen_grammar data)).
  { assert (X0 : xinv gen_grammar data (init_st o ff data)).
    { unfold init_st, check_rune. destruct (_ && _); constructor; cbn; auto. }
    assert (R0 : Reach data (s_pt (init_st o ff data))) by (unfold init_st, check_rune; destruct (_ && _); constructor).
    exact (proj1 (x_all o gen_grammar data gen_lits_ok) _ _ _ _ _ R (fine_rule _ gen_lits_ok _ _ F) R0 X0). }
  destruct r as [v1 en s|en s|m y s|]; cbn in P, I, X; try discriminate P.
  - injection P as _ <- _. now apply (K s) in H.
  - injection P as <- <- _. split; [reflexivity|]. destruct (s_errs s) as [|e0 l] eqn:Es.
    + destruct H as [<-|[]]. split; [reflexivity|]. cbn. exists (s_mfexp s). split; [reflexivity|].
      split; [exact (x_exp _ _ _ X)|]. intros Hi. rewrite Hi in R, F. rewrite find_init in F. injection F as <-.
      apply init_no_match in R as [_ [R|R]]; [exact R|]. intros N. rewrite (x_nil _ _ _ X N) in R. cbn in R. lia.
    + rewrite <- Es in H. now apply (K s) in H.
  - destruct (k_recover _); [|discriminate P]. injection P as _ <- _. apply in_app_iff in H as [H|[<-|[]]].
    + now apply (K s) in H.
    + discriminate Hr.
Qed.

(** ** Lists of texts *)

Lemma dedupe_in l : forall seen x, In x (dedupe seen l) <-> In x l /\ ~ In x seen.
Proof.
  assert (D : forall x seen, existsb (beqb x) seen = true <-> In x seen).
  { intros x seen. rewrite existsb_exists. split.
    - intros (y & Hy & E). apply beqb_true in E. now subst.
    - intros H. exists x. split; [exact H|]. now apply beqb_true. }
  induction l as [|y l IH]; intros seen x; cbn; [tauto|].
  destruct (existsb (beqb y) seen) eqn:E.
  - apply D in E. rewrite IH. split; [tauto|]. intros [[->|H] N]; [contradiction|auto].
  - assert (N : ~ In y seen) by (rewrite <- D; congruence). cbn. rewrite IH. cbn. split.
    + intros [->|[H K]]; auto.
    + intros [[->|H] K]; auto. destruct (list_eq_dec N.eq_dec y x) as [->|D2]; [auto|right]. split; [exact H|]. intros [K2|K2]; auto.
Qed.
Lemma dedupe_nodup l : forall seen, NoDup (dedupe seen l).
Proof.
  induction l as [|y l IH]; intros seen; cbn; [constructor|].
  destruct (existsb _ _); [apply IH|]. constructor; [|apply IH]. rewrite dedupe_in. intros [_ H]. apply H. now left.
Qed.
Lemma dedupe_first l : forall seen pre x post, dedupe seen l = pre ++ x :: post ->
  exists l1 l2, l = l1 ++ x :: l2 /\ ~ In x l1 /\ (forall y, In y pre -> In y l1) /\ (forall y, In y l1 -> In y seen \/ In y pre).
Proof.
  induction l as [|y l IH]; intros seen pre x post E; cbn in E; [destruct pre; discriminate|].
  destruct (existsb (beqb y) seen) eqn:S.
  - apply existsb_exists in S as (z & Hz & Ez). apply beqb_true in Ez. subst z.
    pose proof (dedupe_in l seen x) as Dx. rewrite E in Dx. assert (Hx : ~ In x seen) by (apply Dx; apply in_or_app; right; now left).
    destruct (IH seen pre x post E) as (l1 & l2 & -> & N & A & C). exists (y :: l1), l2. split; [reflexivity|].
    split; [intros [->|K]; auto|]. split; [intros z K; right; auto|]. intros z [<-|K]; auto.
  - destruct pre as [|z pre]; cbn in E; injection E as <- E.
    + exists [], l. split; [reflexivity|]. split; [auto|]. split; [intros z []|intros z []].
    + assert (Hx : ~ In x (y :: seen)).
      { pose proof (dedupe_in l (y :: seen) x) as Dx. rewrite E in Dx. apply Dx. apply in_or_app. right; now left. }
      destruct (IH (y :: seen) pre x post E) as (l1 & l2 & -> & N & A & C). exists (y :: l1), l2. split; [reflexivity|].
      split; [intros [->|K]; [apply Hx; now left|auto]|]. split; [intros w [<-|K]; [now left|right; auto]|].
      intros w [<-|K]; [right; now left|]. destruct (C w K) as [[->|K2]|K2]; [right; now left|now left|right; now right].
Qed.

(** Byte-wise order *)
Definition ble (x y : bytes) : Prop := bleb x y = true.
Lemma bleb_total x : forall y, bleb x y = false -> bleb y x = true.
Proof.
  induction x as [|c x IH]; intros [|d y] H; cbn in *; try discriminate; auto.
  apply orb_false_iff in H as [H1 H2]. apply N.ltb_ge in H1. destruct (N.eqb_spec c d) as [->|D].
  - cbn in H2. rewrite N.eqb_refl. rewrite (IH _ H2). apply orb_true_r.
  - assert (L : (d <? c)%N = true) by (apply N.ltb_lt; lia). now rewrite L.
Qed.
Lemma insert_perm x l : Permutation (insert_sorted x l) (x :: l).
Proof.
  induction l as [|y l IH]; cbn; [reflexivity|]. destruct (bleb x y); [reflexivity|].
  rewrite IH. constructor.
Qed.
Lemma sort_perm l : Permutation (sort_bytes l) l.
Proof. induction l as [|x l IH]; [reflexivity|]. change (sort_bytes (x :: l)) with (insert_sorted x (sort_bytes l)). now rewrite insert_perm, IH. Qed.
Lemma insert_sorted_ok x l : LocallySorted ble l -> LocallySorted ble (insert_sorted x l).
Proof.
  induction l as [|y l IH]; intros H; cbn; [constructor|].
  destruct (bleb x y) eqn:E; [constructor; auto|].
  assert (Y : ble y x) by (now apply bleb_total).
  inversion H as [| |? z l' Hl Hz]; subst; cbn.
  - constructor; [constructor|exact Y].
  - specialize (IH Hl). cbn in IH. destruct (bleb x z); constructor; auto.
Qed.
Lemma sort_sorted l : LocallySorted ble (sort_bytes l).
Proof. induction l as [|x l IH]; [constructor|]. now apply insert_sorted_ok. Qed.

(** The list in the no-match message *)
Lemma no_match_items ws : exists l, no_match_msg ws = b "no match found, expected: " ++ list_join (l ++ (if existsb (beqb (b "!.")) ws then [b "EOF"] else [])) /\
  NoDup l /\ LocallySorted ble l /\ forall w, In w l <-> In w ws /\ w <> b "!.".
Proof.
  exists (sort_bytes (filter (fun w => negb (beqb (b "!.") w)) (dedupe [] ws))). split; [|split; [|split]].
  - unfold no_match_msg. do 4 f_equal.
    assert (E : forall l l' : list bytes, (forall x, In x l <-> In x l') -> existsb (beqb (b "!.")) l = existsb (beqb (b "!.")) l').
    { intros l l' H. apply eq_true_iff_eq. rewrite !existsb_exists. split; intros (y & Hy & K); exists y; split; auto; now apply H. }
    rewrite (E (dedupe [] ws) ws); [reflexivity|]. intros x. rewrite dedupe_in. cbn. tauto.
  - eapply Permutation_NoDup; [symmetry; apply sort_perm|]. apply NoDup_filter, dedupe_nodup.
  - apply sort_sorted.
  - intros w. rewrite (Permutation_in' eq_refl (sort_perm _)), filter_In, dedupe_in. cbn.
    rewrite negb_true_iff. split; intros [[H1 H2] H3] || intros [H1 H3]; repeat split; auto.
    + intros ->. vm_compute in H3. discriminate H3.
    + match goal with |- ?x = false => destruct x eqn:E; [|reflexivity] end. exfalso. apply H3. symmetry. apply beqb_true. exact E.
Qed.
