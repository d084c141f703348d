(** Facts about whole parses: the kinds of results, end of input, encoding,
    expression limit, failure record. *)
From Coq Require Import List NArith ZArith Bool String Arith Lia.
From Verif Require Import Bytes Utf8 F64 Ast Peg Actions Engine Parser GrammarGen QuoteFacts PosFacts Run EngineFacts
  Termination Matches RunInv Sim HistFacts.
Import ListNotations.

(** ** Kinds of results *)

Lemma init_ok_config o s v en s' : ev o gen_grammar "init" gen_init [] s (OOk v en s') -> exists c, v = VConfig c.
Proof.
  intros H. apply init_run in H as [[_ (s1 & H & _)]|[_ (r1 & _ & H)]]; [discriminate|].
  destruct r1; cbn in H; try discriminate. inversion H. eauto.
Qed.

Lemma parse_kinds opts ff data :
  k_entry (config_of opts) = "init"%string -> k_recover (config_of opts) = true ->
  exists v errs, fst (parse opts ff data) = Returned v errs /\
    ((exists c, v = VConfig c) \/ (v = VNil /\ errs <> [])).
Proof.
  intros He Hr. pose proof (parse_run opts ff data) as P. rewrite He, find_init in P. destruct P as (r & R & ->).
  destruct r as [v en s|en s|m x s|]; cbn.
  - exists v, (s_errs s). split; [reflexivity|]. left. eapply init_ok_config. exact R.
  - eexists _, _. split; [reflexivity|]. right. split; [reflexivity|]. destruct (s_errs s); discriminate.
  - rewrite Hr. eexists _, _. split; [reflexivity|]. right. split; [reflexivity|]. destruct (s_errs s); discriminate.
  - apply (proj1 (ev_not_fuel _ _)) in R. congruence.
Qed.

(** ** Where panics come from *)

Inductive panic_from : emsg -> string -> st -> Prop :=
| pf_limit x s : panic_from max_expr_msg x s
| pf_action ign w a en p t m x s : run_action ign w a en p t = RPanic m -> panic_from m x s
| pf_fatal msg s0 x m s : fatal_error (b msg) s0 = (m, s) -> panic_from m x s.

Definition panic_ok (r : out) : Prop := match r with OPanic m x s => panic_from m x s | _ => True end.
Lemma panics o g :
  (forall rule e en s r, ev o g rule e en s r -> panic_ok r) /\
  (forall rule pt w es acc en s r, evs o g rule pt w es acc en s r -> panic_ok r) /\
  (forall rule es en s r, evc o g rule es en s r -> panic_ok r) /\
  (forall rule e acc en s r, evt o g rule e acc en s r -> panic_ok r).
Proof.
  apply ev_mutind; try (intros; exact I); try (intros; assumption).
  - intros. constructor.
  - intros rule e en s r _ P. destruct e; cbn in P; try discriminate; try (injection P as <-); try exact I.
    + destruct p; try exact I. apply (pf_fatal msg (tick s)). reflexivity.
    + destruct (at_eof _); exact I.
    + destruct (_ && _); exact I.
    + set (s0 := tick s). clearbody s0. change (s_pt s) with (s_pt s). revert s0.
      generalize (s_pt s). intros p. induction runes as [|r rs IH]; intros s0; cbn; [exact I|]. destruct (_ =? _)%N; [apply IH|exact I].
    + destruct (find_rule name g); [discriminate|]. injection P as <-. exact I.
  - intros rule a e en s r _ _ IH. destruct r; cbn in *; auto.
    destruct (run_action _ _ _ _ _ _) eqn:E; cbn; auto. eapply pf_action. exact E.
  - intros rule l e en s r _ _ IH. destruct r; cbn in *; auto.
  - intros rule e en s r _ _ IH. destruct r; cbn in *; auto.
  - intros rule e en s r _ _ IH. destruct r; cbn in *; auto.
  - intros rule name e en s r _ _ _ IH. destruct r; cbn in *; auto.
  - intros rule e en s r _ _ IH. destruct r as [v en' s'|en' s'|m x s'|]; cbn in *; auto. destruct v; cbn; auto. destruct l; exact I.
Qed.

(** ** Fatal errors *)

Definition fatal_prefix : bytes := b "Parsing error at pos ".
Definition fatal_text (m : emsg) : bool := match m with MText t => has_prefix fatal_prefix t | _ => false end.

Lemma config_loop_msg com first vs i f o m : config_loop com first vs i f o = inr m -> fatal_text m = false.
Proof.
  revert first i f o. induction vs as [|v vs IH]; intros first i f o; cbn; [discriminate|].
  destruct v; try (intros E; inversion E; reflexivity).
  destruct (ps_type _); try apply IH. intros E; inversion E; reflexivity.
Qed.
Ltac act_cases H := repeat (first [discriminate H | match type of H with
  | context [match ?x with _ => _ end] => destruct x eqn:?
  end]).
Lemma action_err_not_fatal ign w a en p t v m : run_action ign w a en p t = RErr v m -> fatal_text m = false.
Proof.
  destruct a; cbn [run_action]; intros H; try discriminate;
  unfold act_ret_config, act_config_section, act_config, act_comment, act_plugin_section, act_plugin, act_attribute_comment,
    act_attributes, act_attribute, act_string, act_regexp, act_number, act_array, act_hash, act_hashentries, act_hashentry,
    act_else_if_comment, act_else_comment, act_branch, act_bop_comment, act_if_block, act_else_block, act_condition,
    act_expression, act_cond_expr, act_neg_selector, act_in, act_compare, act_regexp_expr, act_rvalue, act_compare_op,
    act_regexp_op, act_boolean_op, act_selector, act_selector_element, slice_panic, conv_panic in H;
  act_cases H; try (inversion H; reflexivity).
  inversion H; subst. eapply config_loop_msg; eassumption.
Qed.
Lemma soft_not_fatal m : soft_msg m -> fatal_text m = false.
Proof. destruct 1; try reflexivity. eapply action_err_not_fatal; eauto. Qed.
Lemma action_panic_not_fatal ign w a en p t m : run_action ign w a en p t = RPanic m -> fatal_text m = false.
Proof.
  destruct a; cbn [run_action]; intros H; try discriminate;
  unfold act_ret_config, act_config_section, act_config, act_comment, act_plugin_section, act_plugin, act_attribute_comment,
    act_attributes, act_attribute, act_string, act_regexp, act_number, act_array, act_hash, act_hashentries, act_hashentry,
    act_else_if_comment, act_else_comment, act_branch, act_bop_comment, act_if_block, act_else_block, act_condition,
    act_expression, act_cond_expr, act_neg_selector, act_in, act_compare, act_regexp_expr, act_rvalue, act_compare_op,
    act_regexp_op, act_boolean_op, act_selector, act_selector_element, slice_panic, conv_panic in H;
  act_cases H; try (inversion H; reflexivity).
Qed.

Definition no_fatal (s : st) : Prop := forall e, In e (s_errs s) -> fatal_text (e_msg e) = false.
Lemma push_error_errs m s : s_errs (push_error m s) = s_errs s.
Proof.
  unfold push_error. destruct (s_ff s); [reflexivity|]. destruct (_ <? _); [reflexivity|].
  destruct (_ =? _); [|reflexivity]. now destruct (existsb _ _).
Qed.
Lemma ev_no_fatal o g rule e en s r : ev o g rule e en s r -> no_fatal s -> out_st r no_fatal.
Proof.
  intros H Hs. assert (K : out_st r (fun s' => no_fatal s -> no_fatal s')).
  { apply (ev_mono o g (fun s s' => no_fatal s -> no_fatal s')) with (rule := rule) (e := e) (en := en);
      auto; unfold no_fatal in *; cbn; auto.
    - intros rule' m p s0 Hm Hn e0 Hin. apply in_app_iff in Hin as [Hin|[<-|[]]]; auto. now apply soft_not_fatal.
    - intros m s0 Hn. now rewrite push_error_errs. }
  destruct r; cbn in *; auto.
Qed.
Lemma init_no_fatal o ff data : no_fatal (init_st o ff data).
Proof.
  unfold init_st, check_rune, no_fatal. destruct (_ && _); cbn; [|tauto]. intros e [<-|[]]. reflexivity.
Qed.

(** ** The failure record *)

Definition one_offset (ff : list failure) : Prop := forall f f', In f ff -> In f' ff -> f_off f = f_off f'.
Definition good_record (ff : list failure) : Prop := one_offset ff /\ NoDup (map f_msg ff).

Lemma beqb_true x y : beqb x y = true <-> x = y.
Proof.
  revert y; induction x as [|c x IH]; destruct y as [|d y]; cbn; split; try congruence; try discriminate.
  - intros H. apply andb_true_iff in H as [H1 H2]. apply N.eqb_eq in H1. apply IH in H2. congruence.
  - intros H. injection H as -> ->. rewrite N.eqb_refl. cbn. now apply IH.
Qed.

Lemma push_good m s : good_record (s_ff s) -> good_record (s_ff (push_error m s)).
Proof.
  assert (One : forall x, good_record [x]).
  { intros x. split; [intros f f' [<-|[]] [<-|[]]; reflexivity|repeat constructor; intros []]. }
  intros [H1 H2]. unfold push_error. destruct (s_ff s) as [|f l] eqn:E; [apply One|].
  destruct (_ <? _); [apply One|]. destruct (Nat.eqb_spec (cur_off s) (f_off f)) as [Eo|_].
  2: { rewrite E; split; auto. }
  destruct (existsb _ _) eqn:X; [rewrite E; split; auto|]. cbn [s_ff set_ff]. split.
  - intros a c Ha Hc. rewrite in_app_iff in Ha, Hc.
    assert (K : forall x, In x (f :: l) \/ In x [Failure m (s_cpos s) (s_ctext s) (cur_off s)] -> f_off x = f_off f).
    { intros x [Hx|[<-|[]]]; [apply H1; [exact Hx|now left]|exact Eo]. }
    rewrite (K a Ha), (K c Hc). reflexivity.
  - rewrite map_app. change (map f_msg [_]) with [m]. apply NoDup_rev in H2. rewrite <- (rev_involutive (_ ++ [_])).
    apply NoDup_rev. rewrite rev_unit. constructor; [|exact H2].
    rewrite <- in_rev, in_map_iff. intros (x & Ex & Hx).
    assert (existsb (fun x => beqb (f_msg x) m) (f :: l) = true).
    { apply existsb_exists. exists x. split; [exact Hx|]. now apply beqb_true. }
    congruence.
Qed.
Lemma ev_good_record o g rule e en s r : ev o g rule e en s r -> good_record (s_ff s) -> out_st r (fun s' => good_record (s_ff s')).
Proof.
  intros H Hs. assert (K : out_st r (fun s' => good_record (s_ff s) -> good_record (s_ff s'))).
  { apply (ev_mono o g (fun s s' => good_record (s_ff s) -> good_record (s_ff s'))) with (rule := rule) (e := e) (en := en);
      auto; cbn; auto using push_good.
    - intros m s0 _. split; [intros f f' [<-|[]] [<-|[]]; reflexivity|repeat constructor; intros []].
    - intros _ _. split; [intros f f' []|constructor]. }
  destruct r; cbn in *; auto.
Qed.

Lemma parse_good_record opts ff data : good_record ff -> good_record (snd (parse opts ff data)).
Proof.
  intros H. pose proof (parse_run opts ff data) as P. destruct (find_rule _ _) as [e|]; [|now rewrite P].
  destruct P as (r & R & ->). apply ev_good_record in R; [|now rewrite init_ff].
  destruct r; cbn in *; auto.
Qed.

Lemma fatal_record opts ff data v errs ff' e :
  k_recover (config_of opts) = true ->
  parse opts ff data = (Returned v errs, ff') -> In e errs -> fatal_text (e_msg e) = true ->
  v = VNil /\ exists f t, ff' = [f] /\ farthest_failure ff' = Some t /\ e_msg e = MText t.
Proof.
  intros Hr P0 Hin Hf. pose proof (parse_run opts ff data) as P. destruct (find_rule _ _) as [e0|].
  2: { rewrite P in P0. inversion P0; subst. destruct Hin as [<-|[]]. discriminate. }
  destruct P as (r & R & P). rewrite P in P0. pose proof R as R1.
  apply ev_no_fatal in R; [|apply init_no_fatal].
  destruct r as [v1 en s|en s|m x s|]; cbn in P0, R; try discriminate.
  - inversion P0; subst. apply R in Hin. congruence.
  - exfalso. inversion P0; subst. destruct (s_errs s) eqn:E.
    + destruct Hin as [<-|[]]. discriminate.
    + rewrite <- E in Hin. apply R in Hin. congruence.
  - rewrite Hr in P0. inversion P0; subst. split; [reflexivity|]. apply in_app_iff in Hin as [Hin|[<-|[]]].
    { apply R in Hin. congruence. }
    cbn in Hf. pose proof (proj1 (panics _ _) _ _ _ _ _ R1) as K. cbn in K. destruct K as [x s|ign w a en p t m x s Ha|msg s0 x m s Hfat].
    + discriminate.
    + apply action_panic_not_fatal in Ha. congruence.
    + unfold fatal_error in Hfat. inversion Hfat; subst. eexists _, _. split; [reflexivity|]. split; [|reflexivity].
      cbn. now rewrite app_nil_r.
Qed.

(** Parses one after the other *)
Definition record_after (history : list (list popt * bytes)) : list failure :=
  fold_left (fun ff x => snd (parse (fst x) ff (snd x))) history [].
Lemma record_after_good history : good_record (record_after history).
Proof.
  unfold record_after. assert (G : good_record []) by (split; [intros f f' []|constructor]).
  revert G. generalize ([] : list failure). induction history as [|x h IH]; intros ff G; cbn; [exact G|].
  apply IH. now apply parse_good_record.
Qed.

(** ** Soft failures *)
Definition rec_off (ff : list failure) : nat := match ff with [] => 0 | f :: _ => f_off f end.

(** Expressions that do not reset the record *)
Fixpoint no_reset (okr : string -> bool) (e : expr) : bool :=
  match e with
  | EAndCode PInitParser => false
  | EAct _ e | ELab _ e | ENot e | EPlus e | EStar e | EOpt e => no_reset okr e
  | EChoice l | ESeq l => forallb (no_reset okr) l
  | ERef n => okr n
  | _ => true
  end.
Lemma push_off m s : rec_off (s_ff s) <= rec_off (s_ff (push_error m s)) /\ cur_off s <= rec_off (s_ff (push_error m s)).
Proof.
  unfold push_error. set (c := cur_off s). destruct (s_ff s) as [|f l] eqn:E; cbn -[Nat.ltb Nat.eqb]; [lia|].
  destruct (Nat.ltb_spec (f_off f) c); cbn; [lia|].
  destruct (Nat.eqb_spec c (f_off f)).
  - match goal with |- context [if ?t then _ else _] => destruct t end; cbn; rewrite ?E; cbn; lia.
  - rewrite E. cbn. lia.
Qed.

Section NoReset.
  Variable o : settings.
  Variable g : grammar.
  Variable okr : string -> bool.
  Hypothesis Hok : forall n e, okr n = true -> find_rule n g = Some e -> no_reset okr e = true.

  Definition off_mono (s : st) (r : out) : Prop :=
    match r with OOk _ _ s' | OFail _ s' => rec_off (s_ff s) <= rec_off (s_ff s') | _ => True end.
  Lemma ff_read rule s : s_ff (read o rule s) = s_ff s.
  Proof. unfold read, check_rune. cbn. now destruct (_ && _). Qed.
  Lemma ff_fail_at x p w s : s_ff (fail_at x p w s) = s_ff s.
  Proof. unfold fail_at. destruct (Bool.eqb _ _); auto. destruct (_ <? _); auto. now destruct (_ <? _). Qed.
  Lemma ff_restore p s : s_ff (restore p s) = s_ff s.
  Proof. unfold restore. now destruct (_ =? _). Qed.
  Lemma ff_lit rule want p rs en : forall s, off_mono s (lit_loop o rule want p rs en s).
  Proof.
    induction rs as [|r rs IH]; intros s; cbn; [now rewrite ff_fail_at|].
    destruct (_ =? _)%N; [|cbn; now rewrite ff_restore, ff_fail_at].
    specialize (IH (read o (Some rule) s)). destruct (lit_loop _ _ _ _ _ _ _); cbn in *; rewrite ?ff_read in IH; auto.
  Qed.

  Lemma off_all :
    (forall rule e en s r, ev o g rule e en s r -> no_reset okr e = true -> off_mono s r) /\
    (forall rule pt w es acc en s r, evs o g rule pt w es acc en s r -> forallb (no_reset okr) es = true -> off_mono s r) /\
    (forall rule es en s r, evc o g rule es en s r -> forallb (no_reset okr) es = true -> off_mono s r) /\
    (forall rule e acc en s r, evt o g rule e acc en s r -> no_reset okr e = true -> off_mono s r).
  Proof.
    apply ev_mutind; try (intros; exact I).
    - intros rule e en s r _ P He. destruct e; cbn in P; try discriminate; try (injection P as <-).
      + destruct p; [discriminate| |exact I]. cbn -[push_error]. pose proof (push_off (b msg) (tick s)). cbn -[push_error] in *. lia.
      + cbn. destruct c; cbn; [destruct (s_warns s)|destruct (_ && _)]; reflexivity.
      + destruct (at_eof _); cbn; now rewrite ff_fail_at, ?ff_read.
      + destruct (_ && _); cbn; now rewrite ff_fail_at, ?ff_read.
      + pose proof (ff_lit rule want (s_pt (tick s)) runes en (tick s)) as K. destruct (lit_loop _ _ _ _ _ _ _); exact K.
      + destruct (find_rule name g); [discriminate|]. injection P as <-. cbn. reflexivity.
    - intros rule a e en s r _ _ IH He. specialize (IH He). destruct r; cbn in *; auto.
      destruct (run_action _ _ _ _ _ _); cbn; auto.
    - intros rule l e en s r _ _ IH He. specialize (IH He). destruct r; cbn in *; auto.
    - intros rule e en s r _ _ IH He. specialize (IH He). destruct r; cbn in *; rewrite ?ff_restore; auto.
    - intros rule e en s r _ _ IH He. specialize (IH He). destruct r; cbn in *; auto.
    - intros rule name e en s r _ F _ IH He. specialize (IH (Hok _ _ He F)). destruct r; cbn in *; auto.
    - intros rule es en s r _ _ IH He. specialize (IH He). destruct r; cbn in *; auto.
    - intros rule es en s r _ _ IH He. specialize (IH He). destruct r; cbn in *; auto.
    - intros rule e en s r _ _ IH He. specialize (IH He). destruct r; cbn in *; auto.
    - intros rule e en s r _ _ IH He. specialize (IH He). destruct r as [v en' s'|en' s'|m x s'|]; cbn in *; auto.
      destruct v; cbn; auto. destruct l; cbn; auto.
    - intros. cbn. reflexivity.
    - intros rule pt w e es acc en s v en' s' r _ IH1 _ IH2 He. cbn in He. apply andb_true_iff in He as [H1 H2].
      specialize (IH1 H1). specialize (IH2 H2). destruct r; cbn in *; auto; lia.
    - intros rule pt w e es acc en s en' s' _ IH He. cbn in He. apply andb_true_iff in He as [H1 H2].
      specialize (IH H1). cbn in *. now rewrite ff_restore.
    - intros. cbn. reflexivity.
    - intros rule e es en s v en' s' _ IH He. cbn in He. apply andb_true_iff in He as [H1 H2]. exact (IH H1).
    - intros rule e es en s en' s' r _ IH1 _ IH2 He. cbn in He. apply andb_true_iff in He as [H1 H2].
      specialize (IH1 H1). specialize (IH2 H2). destruct r; cbn in *; auto; lia.
    - intros rule e acc en s en' s' _ IH He. exact (IH He).
    - intros rule e acc en s v en' s' r _ IH1 _ IH2 He.
      specialize (IH1 He). specialize (IH2 He). destruct r; cbn in *; auto; lia.
  Qed.
End NoReset.

Lemma gen_reset_only_init : forallb (fun x => implb (not_init (fst x)) (no_reset not_init (snd x))) gen_grammar = true.
Proof. vm_compute. reflexivity. Qed.
Lemma gen_no_reset n e : not_init n = true -> find_rule n gen_grammar = Some e -> no_reset not_init e = true.
Proof. intros H F. pose proof (forallb_rule n e gen_reset_only_init F) as K. cbn [fst snd] in K. now rewrite H in K. Qed.

Lemma eval_off_mono o n rule e en s :
  no_reset not_init e = true ->
  match eval o gen_grammar n rule e en s with
  | OOk _ _ s' | OFail _ s' => rec_off (s_ff s) <= rec_off (s_ff s')
  | _ => True
  end.
Proof.
  intros He. destruct (eval o gen_grammar n rule e en s) eqn:E; auto.
  - assert (R : ev o gen_grammar rule e en s (OOk v e0 s0)) by (rewrite <- E; apply eval_ev; congruence).
    exact (proj1 (off_all o gen_grammar not_init gen_no_reset) _ _ _ _ _ R He).
  - assert (R : ev o gen_grammar rule e en s (OFail e0 s0)) by (rewrite <- E; apply eval_ev; congruence).
    exact (proj1 (off_all o gen_grammar not_init gen_no_reset) _ _ _ _ _ R He).
Qed.

(** ** Sequences of soft failures *)

(** What [pushError] does to the record (parse_error_helper.go:46-61), without the
    rest of the state *)
Definition report (l : list failure) (s : st) : st :=
  fold_left (fun s f => push_error (f_msg f) (set_cur (f_cpos f) (f_text f) s)) l s.

(** Specification: the farthest offset, and the failures at it, each message once *)
Definition farthest (l : list failure) : nat := fold_right (fun f m => Nat.max (f_off f) m) 0 l.
Fixpoint once (seen : list bytes) (l : list failure) : list failure :=
  match l with
  | [] => []
  | f :: l' => if existsb (beqb (f_msg f)) seen then once seen l' else f :: once (f_msg f :: seen) l'
  end.
Definition at_farthest (l : list failure) : list failure :=
  once [] (filter (fun f => f_off f =? farthest l) l).

(** The offset of a failure is where its text ends *)
Definition proper (f : failure) : Prop := f_off f = p_off (f_cpos f) + List.length (f_text f).

Definition push_ff (f : failure) (ff : list failure) : list failure :=
  match ff with
  | [] => [f]
  | g :: _ =>
      if f_off g <? f_off f then [f]
      else if f_off f =? f_off g then
        if existsb (fun x => beqb (f_msg x) (f_msg f)) ff then ff else ff ++ [f]
      else ff
  end.
Lemma push_error_ff f s : proper f -> s_ff (push_error (f_msg f) (set_cur (f_cpos f) (f_text f) s)) = push_ff f (s_ff s).
Proof.
  intros P. unfold push_error, push_ff, cur_off. cbn [set_cur s_cpos s_ctext s_ff]. rewrite <- P.
  replace (Failure (f_msg f) (f_cpos f) (f_text f) (f_off f)) with f by now destruct f.
  destruct (s_ff s) as [|g l] eqn:E; [reflexivity|].
  destruct (_ <? _); [reflexivity|]. destruct (_ =? _); [|cbn; now rewrite E].
  destruct (existsb _ _); cbn; auto.
Qed.

Lemma farthest_snoc l f : farthest (l ++ [f]) = Nat.max (farthest l) (f_off f).
Proof. unfold farthest. induction l as [|a l IH]; cbn; [lia|]. rewrite IH. lia. Qed.
Lemma farthest_ge l f : In f l -> f_off f <= farthest l.
Proof. unfold farthest. induction l as [|a l IH]; cbn; [tauto|]. intros [->|H]; [|apply IH in H]; lia. Qed.
Lemma filter_none {A} (p : A -> bool) l : (forall x, In x l -> p x = false) -> filter p l = [].
Proof. induction l as [|a l IH]; cbn; intros H; [reflexivity|]. rewrite H by now left. apply IH. intros; apply H; now right. Qed.
Lemma existsb_sym l m : existsb (fun x => beqb (f_msg x) m) l = existsb (beqb m) (map f_msg l).
Proof.
  induction l as [|a l IH]; cbn; [reflexivity|]. rewrite IH. f_equal.
  destruct (beqb (f_msg a) m) eqn:E1, (beqb m (f_msg a)) eqn:E2; auto.
  - apply beqb_true in E1. rewrite E1 in E2. rewrite (proj2 (beqb_true m m) eq_refl) in E2. discriminate.
  - apply beqb_true in E2. rewrite E2 in E1. rewrite (proj2 (beqb_true (f_msg a) (f_msg a)) eq_refl) in E1. discriminate.
Qed.
Lemma once_snoc seen l f : once seen (l ++ [f]) =
  once seen l ++ (if existsb (beqb (f_msg f)) seen || existsb (beqb (f_msg f)) (map f_msg (once seen l)) then [] else [f]).
Proof.
  revert seen. induction l as [|a l IH]; intros seen; cbn.
  - rewrite orb_false_r. destruct (existsb _ seen); reflexivity.
  - destruct (existsb (beqb (f_msg a)) seen) eqn:E; [apply IH|]. cbn. f_equal. rewrite IH. cbn.
    f_equal. destruct (existsb (beqb (f_msg f)) seen), (beqb (f_msg f) (f_msg a)); reflexivity.
Qed.
Lemma once_nil seen l : once seen l = [] -> forall f, In f l -> existsb (beqb (f_msg f)) seen = true.
Proof.
  induction l as [|a l IH]; cbn; [tauto|]. destruct (existsb (beqb (f_msg a)) seen) eqn:E; [|discriminate].
  intros H f [<-|K]; auto.
Qed.
Lemma at_farthest_off l f : In f (at_farthest l) -> f_off f = farthest l.
Proof.
  unfold at_farthest. assert (G : forall l seen, In f (once seen l) -> In f l).
  { clear. induction l as [|a l IH]; cbn; intros seen; [tauto|]. destruct (existsb _ _); [right; eauto|].
    intros [->|H]; [now left|right; eauto]. }
  intros H. apply G in H. apply filter_In in H as [_ H]. now apply Nat.eqb_eq in H.
Qed.
Lemma at_farthest_nonempty l : l <> [] -> at_farthest l <> [].
Proof.
  intros H E. assert (G : exists f, In f l /\ f_off f = farthest l).
  { clear E. induction l as [|a l IH]; [congruence|]. destruct l as [|c l].
    - exists a. cbn. split; [now left|lia].
    - destruct IH as (f & H1 & H2); [discriminate|]. cbn [farthest fold_right] in *. fold (farthest (c :: l)) in *.
      destruct (Nat.le_gt_cases (f_off a) (farthest (c :: l))).
      + exists f. split; [now right|]. cbn in *. lia.
      + exists a. split; [now left|]. cbn in *. lia. }
  destruct G as (f & H1 & H2).
  assert (X : In f (filter (fun f => f_off f =? farthest l) l)) by (apply filter_In; split; [exact H1|now apply Nat.eqb_eq]).
  pose proof (once_nil _ _ E _ X) as K. discriminate.
Qed.
Lemma report_spec l s : Forall proper l -> s_ff s = [] -> s_ff (report l s) = at_farthest l.
Proof.
  intros Hp Hs. induction l as [|f l IH] using rev_ind; [exact Hs|].
  apply Forall_app in Hp as [Hp Hf]. inversion Hf as [|? ? Hf1 _]; subst. specialize (IH Hp).
  unfold report in *. rewrite fold_left_app. cbn [fold_left]. rewrite push_error_ff by exact Hf1. rewrite IH.
  destruct l as [|a l0].
  { cbn. unfold at_farthest. cbn. rewrite Nat.max_0_r, Nat.eqb_refl. reflexivity. }
  set (l := a :: l0) in *.
  pose proof (at_farthest_nonempty l ltac:(discriminate)) as Ne.
  unfold push_ff. destruct (at_farthest l) as [|x r] eqn:E; [congruence|].
  assert (Hx : f_off x = farthest l) by (apply at_farthest_off; rewrite E; now left).
  unfold at_farthest at 1. rewrite farthest_snoc, Hx.
  destruct (Nat.ltb_spec (farthest l) (f_off f)) as [L|L].
  - rewrite Nat.max_r by lia. rewrite filter_app, filter_none.
    + cbn. rewrite Nat.eqb_refl. reflexivity.
    + intros y Hy. apply farthest_ge in Hy. apply Nat.eqb_neq. lia.
  - rewrite Nat.max_l by lia. rewrite filter_app. cbn [filter].
    destruct (Nat.eqb_spec (f_off f) (farthest l)) as [Eq|Nq].
    + rewrite once_snoc. fold (at_farthest l). rewrite E, existsb_sym. change (existsb (beqb (f_msg f)) []) with false. cbn [orb].
      destruct (existsb _ _); [now rewrite app_nil_r|reflexivity].
    + rewrite app_nil_r. fold (at_farthest l). now rewrite E.
Qed.
