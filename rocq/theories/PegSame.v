(** The grammar file and the optimised grammar: inlining rules, flattening a nested sequence
    and joining two literals into a class do not change what the runtime does, but for the
    number of expressions, the rule names in errors and the list of expected things. *)
From Coq Require Import List NArith Bool String Arith Lia.
From Verif Require Import Bytes Utf8 F64 Ast Peg Actions Engine Parser QuoteFacts PosFacts Run EngineFacts.
Import ListNotations.

Definition action_dec (a c : action) : {a = c} + {a <> c}.
Proof. repeat decide equality. Defined.
Definition pred_dec (a c : predicate) : {a = c} + {a <> c}.
Proof. repeat decide equality. Defined.
Definition code_dec (a c : statecode) : {a = c} + {a <> c}.
Proof. decide equality. Defined.
Definition runes_dec (a c : list N) : {a = c} + {a <> c} := list_eq_dec N.eq_dec a c.
Definition ranges_dec (a c : list (N * N)) : {a = c} + {a <> c}.
Proof. repeat decide equality. Defined.

(** ** States and outcomes that differ only in what is left out *)
Definition anon (e : perror) : perror := PError (e_pos e) None (e_msg e).
Definition nrm (s : st) : st :=
  St (s_pt s) (s_cpos s) (s_ctext s) (s_warns s) (s_ff s) (map anon (s_errs s)) (s_mfpos s) [] (s_mfinv s) 0.
Definition same (s s' : st) : Prop := nrm s = nrm s'.
Definition samev (v k : bool) (r r' : out) : Prop :=
  match r, r' with
  | OOk x en s, OOk x' en' s' => (v = true -> x = x') /\ (k = true -> en = en') /\ same s s'
  | OFail en s, OFail en' s' => (k = true -> en = en') /\ same s s'
  | OPanic m _ s, OPanic m' _ s' => m = m' /\ same s s'
  | _, _ => False
  end.

Lemma same_refl s : same s s. Proof. reflexivity. Qed.
Lemma same_sym s s' : same s s' -> same s' s. Proof. unfold same. auto. Qed.
Lemma same_trans a c d : same a c -> same c d -> same a d. Proof. unfold same. congruence. Qed.
Ltac sm := intros; repeat match goal with s : st |- _ => destruct s end; unfold same, nrm in *; cbn in *;
  repeat match goal with H : St _ _ _ _ _ _ _ _ _ _ = St _ _ _ _ _ _ _ _ _ _ |- _ => injection H; clear H; intros; subst end.
Lemma same_pt s s' : same s s' -> s_pt s = s_pt s'. Proof. sm; auto. Qed.
Lemma same_cpos s s' : same s s' -> s_cpos s = s_cpos s'. Proof. sm; auto. Qed.
Lemma same_ctext s s' : same s s' -> s_ctext s = s_ctext s'. Proof. sm; auto. Qed.
Lemma same_warns s s' : same s s' -> s_warns s = s_warns s'. Proof. sm; auto. Qed.
Lemma same_ff s s' : same s s' -> s_ff s = s_ff s'. Proof. sm; auto. Qed.
Lemma same_errs s s' : same s s' -> map anon (s_errs s) = map anon (s_errs s'). Proof. sm; auto. Qed.
Lemma same_mfpos s s' : same s s' -> s_mfpos s = s_mfpos s'. Proof. sm; auto. Qed.
Lemma same_mfinv s s' : same s s' -> s_mfinv s = s_mfinv s'. Proof. sm; auto. Qed.
Lemma same_tick s s' : same s s' -> same (tick s) (tick s'). Proof. sm; congruence. Qed.
Lemma same_tick1 s s' : same s s' -> same (tick s) s'. Proof. sm; congruence. Qed.
Lemma same_set_pt p s s' : same s s' -> same (set_pt p s) (set_pt p s'). Proof. sm; congruence. Qed.
Lemma same_set_cur p t s s' : same s s' -> same (set_cur p t s) (set_cur p t s'). Proof. sm; congruence. Qed.
Lemma same_set_warns w s s' : same s s' -> same (set_warns w s) (set_warns w s'). Proof. sm; congruence. Qed.
Lemma same_set_ff f s s' : same s s' -> same (set_ff f s) (set_ff f s'). Proof. sm; congruence. Qed.
Lemma same_set_mfinv i s s' : same s s' -> same (set_mfinv i s) (set_mfinv i s'). Proof. sm; congruence. Qed.
Lemma same_set_mf p l l' s s' : same s s' -> same (set_mf p l s) (set_mf p l' s'). Proof. sm; congruence. Qed.
Lemma same_err r r' m p s s' : same s s' -> same (add_err_at r m p s) (add_err_at r' m p s').
Proof.
  intros H. pose proof (same_errs _ _ H) as E. unfold add_err_at. destruct s, s'. unfold same, nrm in *. cbn in *.
  injection H as -> -> -> -> -> _ -> ->. rewrite !map_app, E. reflexivity.
Qed.
Lemma same_restore p s s' : same s s' -> same (restore p s) (restore p s').
Proof. intros H. unfold restore. rewrite (same_pt _ _ H). destruct (_ =? _); [exact H|now apply same_set_pt]. Qed.
Lemma same_fail_at x p w w' s s' : same s s' -> same (fail_at x p w s) (fail_at x p w' s').
Proof.
  intros H. unfold fail_at. rewrite (same_mfinv _ _ H), (same_mfpos _ _ H). destruct (Bool.eqb _ _); [|exact H].
  destruct (p_off p <? _); [exact H|]. destruct (_ <? p_off p); now apply same_set_mf.
Qed.
Lemma same_slice p s s' : same s s' -> slice_from p s = slice_from p s'.
Proof. intros H. unfold slice_from. now rewrite (same_pt _ _ H). Qed.
Lemma same_eof s s' : same s s' -> at_eof s = at_eof s'.
Proof. intros H. unfold at_eof. now rewrite (same_pt _ _ H). Qed.
Lemma samev_weak v k r r' : samev true true r r' -> samev v k r r'.
Proof. destruct r, r'; cbn; tauto. Qed.

Section Grammars.
  Variable o : settings.
  Hypothesis No : o_max o = None.
  Variables g1 g2 : grammar.

  Lemma no_limit s : over_limit o s = false.
  Proof. unfold over_limit. now rewrite No. Qed.
  Lemma same_read r r' s s' : same s s' -> same (read o r s) (read o r' s').
  Proof.
    intros H. unfold read, check_rune. rewrite (same_pt _ _ H). pose proof (same_set_pt (advance_pt (s_pt s')) _ _ H) as K.
    rewrite (same_pt _ _ K). destruct (_ && _); [now apply same_err|exact K].
  Qed.
  Lemma same_lit r r' w w' p rs en : forall s s', same s s' ->
    samev true true (lit_loop o r w p rs en s) (lit_loop o r' w' p rs en s').
  Proof.
    induction rs as [|x rs IH]; intros s s' H; cbn [lit_loop].
    - cbn. pose proof (same_fail_at true (pt_pos p) w w' _ _ H) as K. rewrite (same_slice p _ _ K). auto.
    - rewrite (same_pt _ _ H). destruct (_ =? x)%N; [apply IH; now apply same_read|]. cbn. split; [auto|].
      apply same_restore. now apply same_fail_at.
  Qed.
  Lemma same_state c s s' : same s s' -> same (run_state o c s) (run_state o c s').
  Proof.
    intros H. unfold run_state. destruct c; rewrite ?(same_warns _ _ H), ?(same_ctext _ _ H), ?(same_cpos _ _ H).
    - destruct (s_warns s'); [exact H|now apply same_set_warns].
    - destruct (_ && _); [now apply same_set_warns|exact H].
  Qed.
  Lemma same_off s s' : same s s' -> cur_off s = cur_off s'.
  Proof. intros H. unfold cur_off. now rewrite (same_cpos _ _ H), (same_ctext _ _ H). Qed.
  Lemma same_push m s s' : same s s' -> same (push_error m s) (push_error m s').
  Proof.
    intros H. unfold push_error. rewrite (same_off _ _ H), (same_ff _ _ H), (same_cpos _ _ H), (same_ctext _ _ H).
    destruct (s_ff s') as [|f l]; [now apply same_set_ff|]. destruct (_ <? _); [now apply same_set_ff|].
    destruct (_ =? _); [|exact H]. destruct (existsb _ _); [exact H|now apply same_set_ff].
  Qed.
  Lemma same_pred r r' p en s s' : same s s' -> samev true true (run_predicate r p en s) (run_predicate r' p en s').
  Proof.
    intros H. destruct p; cbn.
    - repeat split; auto. now apply same_set_ff.
    - split; [auto|]. now apply same_push.
    - rewrite (same_off _ _ H), (same_cpos _ _ H), (same_ctext _ _ H). split; [reflexivity|now apply same_set_ff].
  Qed.

  (** ** Expressions that never look at the labels *)
  Definition no_labels (a : action) : bool :=
    match a with
    | AEmptyConfig | AComment | AWhitespace | AStr | AString _ | AEnclosedValue | ANumber | ARegexp
    | ABooleanOperator | ACompareOperator | APluginType _ | ARegexpOperator | ASelectorElement => true
    | _ => false
    end.
  Fixpoint env_free (e : expr) : bool :=
    match e with EAct a e' => no_labels a && env_free e' | ESeq _ | ELab _ _ => false | _ => true end.
  Definition with_env (en : env) (r : out) : out :=
    match r with OOk v _ s => OOk v en s | OFail _ s => OFail en s | x => x end.
  Lemma action_free i w a en en' p t : no_labels a = true -> run_action i w a en p t = run_action i w a en' p t.
  Proof. destruct a; cbn [no_labels]; intros H; try discriminate H; reflexivity. Qed.

  Lemma free_choice g rule es en s r : evc o g rule es en s r -> forall en', evc o g rule es en' s (with_env en' r).
  Proof.
    revert en s r. induction es as [|e es IH]; intros en s r H en'; inversion H; subst; cbn [with_env].
    - constructor.
    - eapply evc_ok; eauto.
    - eapply evc_next; eauto.
    - eapply evc_panic; eauto.
  Qed.
  Lemma free_star g rule e acc en s r : evt o g rule e acc en s r -> forall en', evt o g rule e acc en' s (with_env en' r).
  Proof.
    intros H. remember e as e0. revert e Heqe0. revert rule e0 acc en s r H.
    refine (evt_mind o g (fun _ _ _ _ _ => True) (fun _ _ _ _ _ _ _ _ => True) (fun _ _ _ _ _ => True)
      (fun rule e acc en s r => forall e', e = e' -> forall en', evt o g rule e acc en' s (with_env en' r)) _ _ _ _ _ _ _ _ _ _ _ _ _ _ _ _ _ _ _ _ _ _);
      auto; intros; cbn [with_env]; subst.
    - eapply evt_stop; eauto.
    - eapply evt_more; eauto.
    - eapply evt_panic; eauto.
  Qed.
  Lemma free_prim g rule e en en' s r : prim_out o g rule e en s = Some r -> prim_out o g rule e en' s = Some (with_env en' r).
  Proof.
    assert (L : forall w p rs s, lit_loop o rule w p rs en' s = with_env en' (lit_loop o rule w p rs en s)).
    { intros w p rs. induction rs as [|x rs IH]; intros s0; cbn [lit_loop]; [reflexivity|]. now destruct (_ =? x)%N. }
    destruct e; cbn [prim_out]; intros H; try discriminate H.
    - injection H as <-. destruct p; reflexivity.
    - now injection H as <-.
    - injection H as <-. now destruct (at_eof s).
    - injection H as <-. now destruct (_ && _).
    - injection H as <-. now rewrite L.
    - destruct (find_rule name g); [discriminate H|]. now injection H as <-.
  Qed.
  Lemma free_ev g : forall e rule en s r, ev o g rule e en s r -> env_free e = true ->
    forall en', ev o g rule e en' s (with_env en' r).
  Proof.
    intros e rule en s r H. induction H as [rule e en s L|rule e en s r L P|rule a e en s r L H IH|rule l e en s r L H _
      |rule e en s r L H _|rule e en s r L H _|rule name e en s r L D H _|rule es en s r L H|rule es en s r L H|rule e en s r L H|rule e en s r L H];
      intros F en'.
    - now apply ev_limit.
    - apply ev_prim; [exact L|]. eapply free_prim; eauto.
    - cbn [env_free] in F. apply andb_true_iff in F as [Fa Fe]. pose proof (ev_act o g rule a e en' s _ L (IH Fe en')) as K.
      replace (with_env en' (act_out o rule a (tick s) r)) with (act_out o rule a (tick s) (with_env en' r)); [exact K|].
      destruct r as [v en1 s1|en1 s1|m x s1|]; try reflexivity. cbn [with_env act_out].
      rewrite (action_free _ _ a en' en1) by exact Fa. destruct (run_action _ _ _ _ _ _); reflexivity.
    - discriminate F.
    - pose proof (ev_not o g rule e en' s _ L H) as K. now destruct r.
    - pose proof (ev_opt o g rule e en' s _ L H) as K. now destruct r.
    - pose proof (ev_ref o g rule name e en' s _ L D H) as K. now destruct r.
    - discriminate F.
    - apply ev_choice; [exact L|]. eapply free_choice; eauto.
    - apply ev_star; [exact L|]. eapply free_star; eauto.
    - pose proof (ev_plus o g rule e en' s _ L (free_star g _ _ _ _ _ _ H en')) as K.
      replace (with_env en' (plus_out en r)) with (plus_out en' (with_env en' r)); [exact K|].
      destruct r as [v en1 s1|en1 s1|m x s1|]; try reflexivity. destruct v; try reflexivity. now destruct l.
  Qed.

  (** ** Expressions that never fail *)
  Fixpoint nofail (e : expr) : bool :=
    match e with EAct _ e' => nofail e' | EStar _ | EOpt _ | EStateCode _ => true | _ => false end.
  Lemma star_nofail g rule e acc en s r : evt o g rule e acc en s r -> forall en' s', r <> OFail en' s'.
  Proof.
    revert rule e acc en s r.
    refine (evt_mind o g (fun _ _ _ _ _ => True) (fun _ _ _ _ _ _ _ _ => True) (fun _ _ _ _ _ => True)
      (fun rule e acc en s r => forall en' s', r <> OFail en' s') _ _ _ _ _ _ _ _ _ _ _ _ _ _ _ _ _ _ _ _ _ _);
      auto; intros; congruence.
  Qed.
  Lemma nofail_ev g : forall e rule en s r, ev o g rule e en s r -> nofail e = true -> forall en' s', r <> OFail en' s'.
  Proof.
    induction e as [a e IH|p|c| | | | | |l e IH|e IH|e IH|e IH|e IH|n]; intros rule en s r H F en' s'; try discriminate F.
    all: inversion H; subst; try discriminate.
    - cbn in F. match goal with K : ev _ _ _ _ _ _ _ |- _ => pose proof (IH _ _ _ _ K F) as Q end.
      destruct r0 as [v en1 s1|en1 s1|m x s1|]; cbn [act_out]; try discriminate; [destruct (run_action _ _ _ _ _ _); discriminate|].
      now destruct (Q en1 s1).
    - match goal with K : prim_out _ _ _ _ _ _ = _ |- _ => cbn in K; injection K as <- end. discriminate.
    - eapply star_nofail; eauto.
    - destruct r0; discriminate.
  Qed.

  (** ** When the expression [e2] of the grammar [g2] does what [e1] of [g1] does *)
  Definition pair_of (e : expr) : option (expr * expr) :=
    match e with ERef x => match find_rule x g1 with Some (ESeq [b1; b2]) => Some (b1, b2) | _ => None end | _ => None end.
  (** the elements of a sequence; a rule that is a sequence of two may be put in their place *)
  Fixpoint inls (f : expr -> expr -> bool) (l1 l2 : list expr) : bool :=
    match l1 with
    | [] => match l2 with [] => true | _ => false end
    | e1 :: t1 =>
        match pair_of e1, l2 with
        | Some (b1, b2), m1 :: m2 :: t2 =>
            f b1 m1 && f b2 m2 && (nofail m1 && nofail m2 && env_free m1 && env_free m2) && inls f t1 t2
        | None, m1 :: t2 => f e1 m1 && inls f t1 t2
        | _, _ => false
        end
    end.
  (** alternatives; after a literal, two literals of one rune may be put into a class *)
  Definition good_rune (x : N) : bool := negb (x =? RuneError)%N.
  Fixpoint inlc (f : expr -> expr -> bool) (l1 l2 : list expr) : bool :=
    match l1 with
    | [] => match l2 with [] => true | _ => false end
    | e1 :: t1 =>
        match l2 with
        | [] => false
        | e2 :: t2 =>
            (f e1 e2 && inlc f t1 t2) ||
            match e1, e2, t1, t2 with
            | ELit _ r1, ELit _ r2, ELit _ [x] :: ELit _ [y] :: t1', EClass _ [x'; y'] [] false :: t2' =>
                (if runes_dec r1 r2 then true else false) && negb (match r1 with [] => true | _ => false end) &&
                (x =? x')%N && (y =? y')%N && good_rune x && good_rune y && inlc f t1' t2'
            | _, _, _, _ => false
            end
        end
    end.
  (** [v]: the values must be the same; [k]: the labels are kept; [j]: fuel *)
  Fixpoint inl (j : nat) (v k : bool) (e1 e2 : expr) : bool :=
    match j with
    | 0 => false
    | S j' =>
        match e1, e2 with
        | ERef x, ERef y => String.eqb x y && match find_rule y g2 with Some _ => true | None => false end
        | ERef x, _ => match find_rule x g1 with Some b1 => inl j' v false b1 e2 && (negb k || env_free e2) | None => false end
        | EAct a p, EAct a' p' => (if action_dec a a' then true else false) && inl j' false true p p'
        | EAndCode p, EAndCode p' => if pred_dec p p' then true else false
        | EStateCode c, EStateCode c' => if code_dec c c' then true else false
        | EAny, EAny => true
        | EClass _ c r i, EClass _ c' r' i' =>
            (if runes_dec c c' then true else false) && (if ranges_dec r r' then true else false) && Bool.eqb i i'
        | ELit _ r, ELit _ r' => if runes_dec r r' then true else false
        | EChoice l, EChoice l' => inlc (inl j' v false) l l'
        | ESeq l, ESeq l' => negb v && inls (inl j' false true) l l'
        | ELab x p, ELab x' p' => String.eqb x x' && inl j' true false p p'
        | ENot p, ENot p' => inl j' false false p p'
        | EPlus p, EPlus p' => inl j' v false p p'
        | EStar p, EStar p' => inl j' v false p p'
        | EOpt p, EOpt p' => inl j' v false p p'
        | _, _ => false
        end
    end.
  Variable J : nat.
  Hypothesis rules_same : forall y b2, find_rule y g2 = Some b2 ->
    exists b1, find_rule y g1 = Some b1 /\ inl J true false b1 b2 = true.

  Definition follows (n : nat) : Prop := forall rule1 e1 en s1, eval o g1 n rule1 e1 en s1 <> OFuel ->
    forall j v k e2 rule2 s2, inl j v k e1 e2 = true -> (k = false -> en = []) -> same s1 s2 ->
    exists r2, ev o g2 rule2 e2 en s2 r2 /\ samev v k (eval o g1 n rule1 e1 en s1) r2.

  Ltac bs := repeat match goal with
    | H : _ && _ = true |- _ => apply andb_true_iff in H as [? ?]
    | H : (if ?x then true else false) = true |- _ => destruct x; [|discriminate H]
    | H : String.eqb _ _ = true |- _ => apply String.eqb_eq in H
    | H : Bool.eqb _ _ = true |- _ => apply Bool.eqb_prop in H
    end; subst.

  Lemma prim_follows j v k rule1 rule2 e1 e2 en s1 s2 r1 : inl j v k e1 e2 = true -> same s1 s2 ->
    match e1 with ERef _ => False | _ => True end -> prim_out o g1 rule1 e1 en s1 = Some r1 ->
    exists r2, prim_out o g2 rule2 e2 en s2 = Some r2 /\ samev v k r1 r2.
  Proof.
    intros H S R. destruct j; [discriminate H|]. destruct e1; try discriminate; destruct e2; try discriminate H; cbn [inl] in H; bs; cbn [prim_out]; intros E;
      try contradiction; injection E as <-; eexists; (split; [reflexivity|]); apply samev_weak.
    - now apply same_pred.
    - cbn. repeat split; auto. now apply same_state.
    - rewrite (same_eof _ _ S), (same_pt _ _ S). destruct (at_eof s2); cbn.
      + split; [auto|]. now apply same_fail_at.
      + pose proof (same_fail_at true (pt_pos (s_pt s2)) "." "." _ _ (same_read (Some rule1) (Some rule2) _ _ S)) as K.
        rewrite (same_slice _ _ _ K). auto.
    - rewrite (same_eof _ _ S), (same_pt _ _ S). destruct (_ && _); cbn.
      + pose proof (same_fail_at true (pt_pos (s_pt s2)) val val0 _ _ (same_read (Some rule1) (Some rule2) _ _ S)) as K.
        rewrite (same_slice _ _ _ K). auto.
      + split; [auto|]. now apply same_fail_at.
    - rewrite (same_pt _ _ S). now apply same_lit.
  Qed.

  Lemma eval_step n rule e en s : eval o g1 (S n) rule e en s = step o g1 (eval o g1 n) n rule e en s.
  Proof. reflexivity. Qed.

  (** a rule that is a sequence of two, in its place *)
  Lemma pair_follows n rule1 rule2 j e1 b1 b2 m1 m2 en s1 s2 : (forall m, m < n -> follows m) ->
    pair_of e1 = Some (b1, b2) -> inl j false true b1 m1 = true -> inl j false true b2 m2 = true ->
    nofail m1 = true -> nofail m2 = true -> env_free m1 = true -> env_free m2 = true -> same s1 s2 ->
    eval o g1 n rule1 e1 en s1 <> OFuel ->
    match eval o g1 n rule1 e1 en s1 with
    | OOk _ en' s' => en' = en /\ exists va vb sm s2', same s' s2' /\
        ev o g2 rule2 m1 en s2 (OOk va en sm) /\ ev o g2 rule2 m2 en sm (OOk vb en s2')
    | OFail _ _ => False
    | OPanic m _ s' => exists x s2', same s' s2' /\ (ev o g2 rule2 m1 en s2 (OPanic m x s2') \/
        exists va sm, ev o g2 rule2 m1 en s2 (OOk va en sm) /\ ev o g2 rule2 m2 en sm (OPanic m x s2'))
    | OFuel => True
    end.
  Proof.
    intros IH P I1 I2 N1 N2 F1 F2 S. unfold pair_of in P. destruct e1; try discriminate P. destruct (find_rule name g1) as [e|] eqn:Fd; [|discriminate P].
    destruct e; try discriminate P. destruct l as [|c1 [|c2 [|? ?]]]; try discriminate P. injection P as -> ->.
    destruct n as [|[|n]]; [cbn [eval]; congruence| |].
    { rewrite eval_step, (step_ref o g1 _ _ _ _ _ _ _ (no_limit _) Fd). cbn [eval ref_out]. congruence. }
    rewrite eval_step, (step_ref o g1 _ _ _ _ _ _ _ (no_limit _) Fd), eval_step.
    set (s0 := tick s1). assert (S0 : same (tick s0) s2) by (apply same_tick1, same_tick1, S).
    unfold step at 1 2. rewrite no_limit. cbn [seq_loop].
    assert (IHn : follows n) by (apply IH; lia).
    pose proof (IHn name b1 [] (tick s0)) as A. destruct (eval o g1 n name b1 [] (tick s0)) as [va ea sa|ea sa|m x sa|] eqn:Ea.
    - destruct (A ltac:(discriminate) j false true m1 rule2 s2 I1 ltac:(discriminate) S0) as ([va2 ea2 sa2| | |] & V & Q); cbn in Q; try contradiction.
      destruct Q as (_ & Qe & Qs). specialize (Qe eq_refl). subst ea2.
      pose proof (IHn name b2 ea sa) as B. clear A.
      assert (Ee : ea = []).
      { pose proof (free_ev g2 _ _ _ _ _ V F1 []) as V'. pose proof (ev_fun _ _ _ _ _ _ _ _ V V') as W. cbn in W. congruence. }
      subst ea. destruct (eval o g1 n name b2 [] sa) as [vb eb sb|eb sb|m x sb|] eqn:Eb.
      + destruct (B ltac:(discriminate) j false true m2 rule2 sa2 I2 ltac:(discriminate) Qs) as ([vb2 eb2 sb2| | |] & W & Q); cbn in Q; try contradiction.
        cbn [ref_out]. intros _. split; [reflexivity|]. exists va2, vb2, sa2, sb2.
        split; [apply Q|]. split; [exact (free_ev g2 _ _ _ _ _ V F1 en)|exact (free_ev g2 _ _ _ _ _ W F2 en)].
      + destruct (B ltac:(discriminate) j false true m2 rule2 sa2 I2 ltac:(discriminate) Qs) as ([vb2 eb2 sb2|eb2 sb2| |] & W & Q); cbn in Q; try contradiction.
        now destruct (nofail_ev g2 _ _ _ _ _ W N2 eb2 sb2).
      + destruct (B ltac:(discriminate) j false true m2 rule2 sa2 I2 ltac:(discriminate) Qs) as ([vb2 eb2 sb2|eb2 sb2|m2' x2 sb2|] & W & Q); cbn in Q; try contradiction.
        destruct Q as [<- Q]. cbn [ref_out]. intros _. exists x2, sb2. split; [exact Q|]. right. exists va2, sa2.
        split; [exact (free_ev g2 _ _ _ _ _ V F1 en)|exact (free_ev g2 _ _ _ _ _ W F2 en)].
      + cbn. congruence.
    - destruct (A ltac:(discriminate) j false true m1 rule2 s2 I1 ltac:(discriminate) S0) as ([va2 ea2 sa2|ea2 sa2| |] & V & Q); cbn in Q; try contradiction.
      now destruct (nofail_ev g2 _ _ _ _ _ V N1 ea2 sa2).
    - destruct (A ltac:(discriminate) j false true m1 rule2 s2 I1 ltac:(discriminate) S0) as ([va2 ea2 sa2|ea2 sa2|m2' x2 sa2|] & V & Q); cbn in Q; try contradiction.
      destruct Q as [<- Q]. cbn [ref_out]. intros _. exists x2, sa2. split; [exact Q|]. left. exact (free_ev g2 _ _ _ _ _ V F1 en).
    - cbn. congruence.
  Qed.

  Lemma seq_follows n rule1 rule2 pt w j : (forall m, m <= n -> follows m) -> forall l1 l2 acc1 acc2 en s1 s2,
    inls (inl j false true) l1 l2 = true -> same s1 s2 -> seq_loop (eval o g1 n rule1) pt w l1 acc1 en s1 <> OFuel ->
    exists r2, evs o g2 rule2 pt w l2 acc2 en s2 r2 /\ samev false true (seq_loop (eval o g1 n rule1) pt w l1 acc1 en s1) r2.
  Proof.
    intros IH. induction l1 as [|e1 l1 IHl]; intros l2 acc1 acc2 en s1 s2 H S; cbn [inls seq_loop] in *.
    { destruct l2; [|discriminate H]. intros _. eexists. split; [constructor|]. cbn. repeat split; auto. discriminate. }
    destruct (pair_of e1) as [[b1 b2]|] eqn:P.
    - destruct l2 as [|m1 [|m2 t2]]; try discriminate H. bs. intros N.
      assert (N' : eval o g1 n rule1 e1 en s1 <> OFuel) by (intros E; rewrite E in N; congruence).
      pose proof (pair_follows n rule1 rule2 j e1 b1 b2 m1 m2 en s1 s2) as K. specialize (K (fun m L => IH m (Nat.lt_le_incl _ _ L)) P).
      specialize (K ltac:(assumption) ltac:(assumption) ltac:(assumption) ltac:(assumption) ltac:(assumption) ltac:(assumption) S N').
      destruct (eval o g1 n rule1 e1 en s1) as [v en' s'|en' s'|m x s'|].
      + destruct K as (-> & va & vb & sm & s2' & S' & V1 & V2).
        match goal with Q : inls _ l1 t2 = true |- _ => destruct (IHl t2 (v :: acc1) (vb :: va :: acc2) en s' s2' Q S' N) as (r2 & R & Q') end.
        exists r2. split; [|exact Q']. eapply evs_ok; [exact V1|]. eapply evs_ok; [exact V2|exact R].
      + destruct K.
      + destruct K as (x2 & s2' & S' & [V|(va & sm & V & V')]); exists (OPanic m x2 s2'); (split; [|cbn; auto]).
        * now apply evs_panic.
        * eapply evs_ok; [exact V|]. now apply evs_panic.
      + congruence.
    - destruct l2 as [|e2 t2]; [discriminate H|]. bs. intros N.
      assert (N' : eval o g1 n rule1 e1 en s1 <> OFuel) by (intros E; rewrite E in N; congruence).
      destruct (IH n (Nat.le_refl n) rule1 e1 en s1 N' j false true e2 rule2 s2 ltac:(assumption) ltac:(discriminate) S) as (r & V & Q).
      destruct (eval o g1 n rule1 e1 en s1) as [v en' s'|en' s'|m x s'|]; destruct r as [v2 en2 s2'|en2 s2'|m2 x2 s2'|]; cbn in Q; try contradiction.
      + destruct Q as (_ & Qe & Qs). specialize (Qe eq_refl). subst en2.
        match goal with Q : inls _ l1 t2 = true |- _ => destruct (IHl t2 (v :: acc1) (v2 :: acc2) en' s' s2' Q Qs N) as (r2 & R & Q') end.
        exists r2. split; [|exact Q']. eapply evs_ok; eauto.
      + destruct Q as (Qe & Qs). specialize (Qe eq_refl). subst en2. eexists. split; [eapply evs_fail; exact V|]. split; [auto|].
        now apply same_restore, same_set_warns.
      + destruct Q as (<- & Qs). eexists. split; [eapply evs_panic; exact V|]. cbn. auto.
  Qed.

  Lemma star_follows n rule1 rule2 j v e1 e2 : follows n -> inl j v false e1 e2 = true -> forall q acc1 acc2 en1 en2 s1 s2,
    same s1 s2 -> List.length acc1 = List.length acc2 -> (v = true -> acc1 = acc2) -> star_loop (eval o g1 n rule1 e1 []) q acc1 en1 s1 <> OFuel ->
    exists r2, evt o g2 rule2 e2 acc2 en2 s2 r2 /\
      match star_loop (eval o g1 n rule1 e1 []) q acc1 en1 s1, r2 with
      | OOk x en s, OOk x' en' s' => (exists l l', x = VList l /\ x' = VList l' /\ List.length l = List.length l' /\ (v = true -> l = l')) /\ en = en1 /\ en' = en2 /\ same s s'
      | OPanic m _ s, OPanic m' _ s' => m = m' /\ same s s'
      | _, _ => False
      end.
  Proof.
    intros IH I. induction q as [|q IHq]; intros acc1 acc2 en1 en2 s1 s2 S L A; cbn [star_loop]; [congruence|]. intros N.
    assert (N' : eval o g1 n rule1 e1 [] s1 <> OFuel) by (intros E; rewrite E in N; congruence).
    destruct (IH rule1 e1 [] s1 N' j v false e2 rule2 s2 I (fun _ => eq_refl) S) as (r & V & Q).
    destruct (eval o g1 n rule1 e1 [] s1) as [x en' s'|en' s'|m y s'|]; destruct r as [x2 en2' s2'|en2' s2'|m2 y2 s2'|]; cbn in Q; try contradiction.
    - destruct Q as (Qv & _ & Qs). assert (L' : List.length (x :: acc1) = List.length (x2 :: acc2)) by (exact (f_equal Datatypes.S L)).
      assert (A' : v = true -> x :: acc1 = x2 :: acc2) by (intros Ev; now rewrite (Qv Ev), (A Ev)).
      destruct (IHq (x :: acc1) (x2 :: acc2) en1 en2 s' s2' Qs L' A' N) as (r2 & R & Q').
      exists r2. split; [eapply evt_more; eauto|exact Q'].
    - destruct Q as (_ & Qs). eexists. split; [eapply evt_stop; eauto|]. cbn. repeat split; auto.
      exists (rev acc1), (rev acc2). repeat split; auto; [now rewrite !rev_length|]. intros Ev. now rewrite (A Ev).
    - destruct Q as (<- & Qs). eexists. split; [eapply evt_panic; eauto|]. cbn. auto.
  Qed.

  (** a mismatch at a place that is not after the farthest one leaves no trace *)
  Definition quiet (s : st) : Prop := s_mfinv s = true \/ p_off (pt_pos (s_pt s)) <= p_off (s_mfpos s).
  Lemma quiet_same s s' : same s s' -> quiet s -> quiet s'.
  Proof. intros H. unfold quiet. now rewrite (same_mfinv _ _ H), (same_pt _ _ H), (same_mfpos _ _ H). Qed.
  Lemma quiet_fail w s : quiet s -> same (fail_at false (pt_pos (s_pt s)) w s) s.
  Proof.
    unfold quiet, fail_at. intros Q. destruct (Bool.eqb false (s_mfinv s)) eqn:E; [|reflexivity].
    apply Bool.eqb_prop in E. destruct Q as [Q|Q]; [congruence|].
    destruct (_ <? _); [reflexivity|]. destruct (p_off (s_mfpos s) <? _) eqn:L; [apply Nat.ltb_lt in L; lia|].
    destruct s. reflexivity.
  Qed.
  Lemma fail_at_pt x p w s : s_pt (fail_at x p w s) = s_pt s.
  Proof. unfold fail_at. destruct (Bool.eqb _ _); [|reflexivity]. destruct (_ <? _); [reflexivity|]. now destruct (_ <? _). Qed.
  Lemma fail_quiet p w s : s_mfinv (fail_at false p w s) = true \/ p_off p <= p_off (s_mfpos (fail_at false p w s)).
  Proof.
    unfold fail_at. destruct (Bool.eqb false (s_mfinv s)) eqn:E.
    - destruct (_ <? _) eqn:L; [apply Nat.ltb_lt in L; lia|]. right.
      destruct (p_off (s_mfpos s) <? p_off p) eqn:L'; destruct s; cbn in *; [lia|]. apply Nat.ltb_ge in L'. lia.
    - left. destruct (s_mfinv s); [reflexivity|discriminate E].
  Qed.
  Lemma lit_quiet r w start en rs : forall s en' s', lit_loop o r w start rs en s = OFail en' s' -> quiet s'.
  Proof.
    induction rs as [|x rs IH]; intros s en' s'; cbn [lit_loop]; [discriminate|]. destruct (_ =? x)%N; [apply IH|].
    intros H. injection H as _ <-. unfold quiet. pose proof (fail_quiet (pt_pos start) w s) as F.
    unfold restore. destruct (_ =? _) eqn:E.
    - apply Nat.eqb_eq in E. rewrite <- E. exact F.
    - destruct (fail_at false (pt_pos start) w s). exact F.
  Qed.
  Lemma set_warns_same s s' : same s' s -> same (set_warns (s_warns s) s') s.
  Proof. intros H. pose proof (same_set_warns (s_warns s) _ _ H) as K. destruct s. exact K. Qed.
  Lemma one_lit r w x en s : quiet s ->
    match lit_loop o r w (s_pt s) [x] en s with
    | OOk v en' s' => (fst (decode_rune (pt_rest (s_pt s))) =? x)%N = true /\ en' = en /\
        same s' (fail_at true (pt_pos (s_pt s)) w (read o (Some r) s)) /\
        v = VBytes (slice_from (s_pt s) (read o (Some r) s))
    | OFail en' s' => (fst (decode_rune (pt_rest (s_pt s))) =? x)%N = false /\ en' = en /\ same s' s
    | _ => False
    end.
  Proof.
    intros Q. cbn [lit_loop]. destruct (_ =? x)%N eqn:E.
    - split; [reflexivity|]. split; [reflexivity|]. split; [reflexivity|]. unfold slice_from. now rewrite fail_at_pt.
    - split; [reflexivity|]. split; [reflexivity|]. pose proof (quiet_fail w s Q) as F. unfold restore. rewrite fail_at_pt, Nat.eqb_refl. exact F.
  Qed.
  Lemma eval_lit n rule w rs en s : eval o g1 n rule (ELit w rs) en s = OFuel \/
    eval o g1 n rule (ELit w rs) en s = lit_loop o rule w (s_pt (tick s)) rs en (tick s).
  Proof. destruct n; [now left|]. right. rewrite eval_step. apply step_prim; [apply no_limit|reflexivity]. Qed.
  Lemma good_eof s x : good_rune x = true -> at_eof s = true -> (fst (decode_rune (pt_rest (s_pt s))) =? x)%N = false.
  Proof.
    unfold good_rune, at_eof. destruct (decode_rune _) as [c w]. intros G E. apply andb_true_iff in E as [E _]. apply N.eqb_eq in E. subst c.
    cbn [fst]. rewrite N.eqb_sym. now apply negb_true_iff in G.
  Qed.

  Lemma choice_follows n rule1 rule2 j v en : follows n -> forall l1 l2 s1 s2,
    inlc (inl j v false) l1 l2 = true -> same s1 s2 -> choice_loop (eval o g1 n rule1) l1 en s1 <> OFuel ->
    exists r2, evc o g2 rule2 l2 en s2 r2 /\ samev v true (choice_loop (eval o g1 n rule1) l1 en s1) r2.
  Proof.
    intros IH l1. remember (List.length l1) as len eqn:Len. revert l1 Len.
    induction len as [len IHlen] using lt_wf_ind. intros l1 Len l2 s1 s2 H S N.
    destruct l1 as [|e1 t1].
    { destruct l2; [|discriminate H]. eexists. split; [constructor|]. cbn. auto. }
    destruct l2 as [|e2 t2]; [discriminate H|]. cbn [inlc] in H.
    assert (N' : eval o g1 n rule1 e1 [] s1 <> OFuel) by (intros E; cbn [choice_loop] in N; rewrite E in N; congruence).
    apply orb_true_iff in H as [H|H].
    - bs. cbn [choice_loop] in *.
      destruct (IH rule1 e1 [] s1 N' j v false e2 rule2 s2 ltac:(assumption) (fun _ => eq_refl) S) as (r & V & Q).
      destruct (eval o g1 n rule1 e1 [] s1) as [x en' s'|en' s'|m y s'|]; destruct r as [x2 en2' s2'|en2' s2'|m2 y2 s2'|]; cbn in Q; try contradiction.
      + eexists. split; [eapply evc_ok; eauto|]. cbn. tauto.
      + destruct Q as (_ & Qs). rewrite (same_warns _ _ S) in *.
        match goal with Q : inlc _ t1 t2 = true |- _ => destruct (IHlen (List.length t1) ltac:(subst; cbn; lia) t1 eq_refl t2 _ _ Q (same_set_warns (s_warns s2) _ _ Qs) N) as (r2 & R & Q') end.
        exists r2. split; [eapply evc_next; eauto|exact Q'].
      + eexists. split; [eapply evc_panic; eauto|]. exact Q.
    - destruct e1; try discriminate H. rename runes into r1, want into w. destruct e2; try discriminate H. rename runes into r2, want into w2.
      destruct t1 as [|ex t1]; try discriminate H. destruct ex; try discriminate H. rename runes into rx, want into wx.
      destruct rx as [|x rx]; try discriminate H. destruct rx; try discriminate H.
      destruct t1 as [|ey t1]; try discriminate H. destruct ey; try discriminate H. rename runes into ry, want into wy.
      destruct ry as [|y ry]; try discriminate H. destruct ry; try discriminate H.
      destruct t2 as [|ec t2]; try discriminate H. destruct ec; try discriminate H. rename val into wc.
      destruct chars as [|x' chars]; try discriminate H. destruct chars as [|y' chars]; try discriminate H.
      destruct chars; try discriminate H. destruct ranges; try discriminate H. destruct inverted; try discriminate H.
      bs. repeat match goal with Q : (_ =? _)%N = true |- _ => apply N.eqb_eq in Q end. subst x' y'.
      assert (I0 : inl 1 v false (ELit w r2) (ELit w2 r2) = true).
      { cbn [inl]. now destruct (runes_dec r2 r2). }
      destruct (IH rule1 (ELit w r2) [] s1 N' 1 v false (ELit w2 r2) rule2 s2 I0 (fun _ => eq_refl) S) as (r & V & Q).
      change (choice_loop (eval o g1 n rule1) (ELit w r2 :: ELit wx [x] :: ELit wy [y] :: t1) en s1) with
        (match eval o g1 n rule1 (ELit w r2) [] s1 with
         | OOk v0 _ s' => OOk v0 en s'
         | OFail _ s' => choice_loop (eval o g1 n rule1) (ELit wx [x] :: ELit wy [y] :: t1) en (set_warns (s_warns s1) s')
         | z => z end) in *.
      destruct (eval_lit n rule1 w r2 [] s1) as [F|F]; [congruence|].
      pose proof (lit_quiet rule1 w (s_pt (tick s1)) [] r2 (tick s1)) as LQ. rewrite <- F in LQ. clear F.
      destruct (eval o g1 n rule1 (ELit w r2) [] s1) as [z en' s'|en' s'|m z s'|]; destruct r as [z2 en2' s2'|en2' s2'|m2 z2 s2'|]; cbn in Q; try contradiction.
      { eexists. split; [eapply evc_ok; eauto|]. cbn. tauto. }
      2:{ eexists. split; [eapply evc_panic; eauto|]. exact Q. }
      destruct Q as (_ & Qs). specialize (LQ _ _ eq_refl).
      set (a1 := set_warns (s_warns s1) s') in *. set (a2 := set_warns (s_warns s2) s2').
      assert (Sa : same a1 a2) by (subst a1 a2; rewrite (same_warns _ _ S); now apply same_set_warns).
      assert (Qa : quiet a1) by (subst a1; destruct s'; exact LQ).
      (* the class, from the same place *)
      set (cls := if negb (at_eof (tick a2)) && class_match [x; y] [] false (fst (decode_rune (pt_rest (s_pt (tick a2))))) then
          OOk (VBytes (slice_from (s_pt (tick a2)) (fail_at true (pt_pos (s_pt (tick a2))) wc (read o (Some rule2) (tick a2))))) []
            (fail_at true (pt_pos (s_pt (tick a2))) wc (read o (Some rule2) (tick a2)))
        else OFail [] (fail_at false (pt_pos (s_pt (tick a2))) wc (tick a2))).
      assert (Vc : ev o g2 rule2 (EClass wc [x; y] [] false) [] a2 cls).
      { apply ev_prim; [apply no_limit|]. cbn [prim_out]. reflexivity. }
      assert (Ss : forall s, same s a1 -> s_pt s = s_pt a2) by (intros s Hs; rewrite (same_pt _ _ Hs); now apply same_pt).
      (* it matches one of the two *)
      assert (Vok : forall ru ww c s, same s a1 -> (c = x \/ c = y) -> good_rune c = true ->
        (fst (decode_rune (pt_rest (s_pt s))) =? c)%N = true ->
        exists s3, cls = OOk (VBytes (slice_from (s_pt s) (read o (Some ru) s))) [] s3 /\
          same (fail_at true (pt_pos (s_pt s)) ww (read o (Some ru) s)) s3).
      { intros ru ww c s Hs Hc G Hd. assert (Sb : same s (tick a2)) by (eapply same_trans; [exact Hs|]; apply same_sym, same_tick1, same_sym, Sa).
        assert (Eo : at_eof (tick a2) = false).
        { destruct (at_eof (tick a2)) eqn:Eo; [|reflexivity]. rewrite <- (same_eof _ _ Sb) in Eo. rewrite (good_eof _ _ G Eo) in Hd. discriminate Hd. }
        subst cls. rewrite Eo, <- (same_pt _ _ Sb). apply N.eqb_eq in Hd. rewrite Hd. cbn [negb andb].
        assert (Ec : class_match [x; y] [] false c = true).
        { unfold class_match. cbn [existsb]. destruct Hc as [Hc|Hc]; subst c; rewrite N.eqb_refl, ?orb_true_r; reflexivity. }
        rewrite Ec. pose proof (same_fail_at true (pt_pos (s_pt s)) ww wc _ _ (same_read (Some ru) (Some rule2) _ _ Sb)) as K.
        eexists. split; [|exact K]. do 2 f_equal. unfold slice_from. rewrite <- (same_pt _ _ K), !fail_at_pt. reflexivity. }
      assert (Vno : (fst (decode_rune (pt_rest (s_pt a1))) =? x)%N = false -> (fst (decode_rune (pt_rest (s_pt a1))) =? y)%N = false ->
        exists s3, cls = OFail [] s3 /\ same a1 s3).
      { intros Hx Hy. assert (Sb : same a1 (tick a2)) by (apply same_sym, same_tick1, same_sym, Sa).
        subst cls. rewrite <- (same_pt _ _ Sb).
        assert (Ec : class_match [x; y] [] false (fst (decode_rune (pt_rest (s_pt a1)))) = false).
        { unfold class_match. cbn [existsb]. now rewrite Hx, Hy. }
        rewrite Ec, andb_false_r. eexists. split; [reflexivity|]. apply same_sym. eapply same_trans; [|apply same_sym; exact Sb].
        rewrite (same_pt _ _ Sb). apply quiet_fail. exact (quiet_same _ _ Sb Qa). }
      cbn [choice_loop] in N |- *.
      destruct (eval_lit n rule1 wx [x] [] a1) as [F|F]; rewrite F in *; [congruence|]. clear F.
      assert (Sa1 : same (tick a1) a1) by (apply same_tick1, same_refl).
      pose proof (one_lit rule1 wx x [] (tick a1) (quiet_same _ _ (same_sym _ _ Sa1) Qa)) as X.
      destruct (lit_loop o rule1 wx (s_pt (tick a1)) [x] [] (tick a1)) as [xv xe xs|xe xs|xm xr xs|]; try contradiction.
      { destruct X as (D & _ & Sx & ->). destruct (Vok rule1 wx x (tick a1) Sa1 (or_introl eq_refl) ltac:(assumption) D) as (s3 & Ec & S3).
        rewrite Ec in Vc. eexists. split; [eapply evc_next; [exact V|]; eapply evc_ok; exact Vc|]. cbn. repeat split; auto.
        eapply same_trans; eauto. }
      destruct X as (Dx & _ & Sx). set (a3 := set_warns (s_warns a1) xs) in *.
      assert (Sa3 : same a3 a1) by (apply set_warns_same; eapply same_trans; eauto).
      destruct (eval_lit n rule1 wy [y] [] a3) as [F|F]; rewrite F in *; [congruence|]. clear F.
      assert (Sa4 : same (tick a3) a1) by (apply same_tick1, Sa3).
      pose proof (one_lit rule1 wy y [] (tick a3) (quiet_same _ _ (same_sym _ _ Sa4) Qa)) as Y.
      destruct (lit_loop o rule1 wy (s_pt (tick a3)) [y] [] (tick a3)) as [yv ye ys|ye ys|ym yr ys|]; try contradiction.
      { destruct Y as (D & _ & Sy & ->). destruct (Vok rule1 wy y (tick a3) Sa4 (or_intror eq_refl) ltac:(assumption) D) as (s3 & Ec & S3).
        rewrite Ec in Vc. eexists. split; [eapply evc_next; [exact V|]; eapply evc_ok; exact Vc|]. cbn. repeat split; auto.
        eapply same_trans; eauto. }
      destruct Y as (Dy & _ & Sy).
      assert (Sa5 : same (set_warns (s_warns a3) ys) a1).
      { apply (same_trans _ a3); [|exact Sa3]. apply set_warns_same. eapply same_trans; [exact Sy|]. now apply same_tick1. }
      rewrite (same_pt _ _ Sa1) in Dx. rewrite (same_pt _ _ Sa4) in Dy. destruct (Vno Dx Dy) as (s3 & Ec & S3). rewrite Ec in Vc.
      assert (Sb : same (set_warns (s_warns a3) ys) (set_warns (s_warns a2) s3)).
      { eapply same_trans; [exact Sa5|]. apply same_sym. rewrite <- (same_warns _ _ Sa). apply set_warns_same. now apply same_sym. }
      match goal with Q : inlc _ t1 t2 = true |- _ => destruct (IHlen (List.length t1) ltac:(subst; cbn; lia) t1 eq_refl t2 _ _ Q Sb N) as (r3 & R & Q') end.
      exists r3. split; [|exact Q']. eapply evc_next; [exact V|]. eapply evc_next; [exact Vc|]. exact R.
  Qed.

  Theorem follows_all n : follows n.
  Proof.
    induction n as [n IHn] using lt_wf_ind. intros rule1 e1 en s1 N j v k e2 rule2 s2 I Hk S.
    destruct n as [|n]; [now cbn in N|]. destruct j as [|j]; [discriminate I|].
    assert (IH : follows n) by (apply IHn; lia).
    assert (S1 : same (tick s1) (tick s2)) by (now apply same_tick).
    rewrite eval_step in *.
    assert (Pr : forall r1, match e1 with ERef _ => False | _ => True end -> prim_out o g1 rule1 e1 en (tick s1) = Some r1 ->
      exists r2, ev o g2 rule2 e2 en s2 r2 /\ samev v k (step o g1 (eval o g1 n) n rule1 e1 en s1) r2).
    { intros r1 Nr P. rewrite (step_prim o g1 _ _ _ _ _ _ _ (no_limit _) P).
      destruct (prim_follows (Datatypes.S j) v k rule1 rule2 e1 e2 en (tick s1) (tick s2) r1 I S1 Nr P) as (r2 & P2 & Q).
      exists r2. split; [|exact Q]. apply ev_prim; [apply no_limit|exact P2]. }
    destruct e1; try (eapply Pr; [exact Logic.I|reflexivity]); clear Pr.
    - (* action *) destruct e2; try discriminate I. cbn [inl] in I. bs. rewrite (step_act o g1) in * by apply no_limit.
      assert (N' : eval o g1 n rule1 e1 en (tick s1) <> OFuel) by (intros E; rewrite E in N; cbn in N; congruence).
      destruct (IH rule1 e1 en (tick s1) N' j false true e2 rule2 (tick s2) ltac:(assumption) ltac:(discriminate) S1) as (r & V & Q).
      eexists. split; [apply ev_act; [apply no_limit|exact V]|].
      destruct (eval o g1 n rule1 e1 en (tick s1)) as [x en' s'|en' s'|m x s'|]; destruct r as [x2 en2 s2'|en2 s2'|m2 x2 s2'|]; cbn in Q; try contradiction.
      + destruct Q as (_ & Qe & Qs). specialize (Qe eq_refl). subst en2. cbn [act_out].
        rewrite (same_slice (s_pt (tick s1)) _ _ Qs), (same_pt _ _ S1).
        set (text := slice_from (s_pt (tick s2)) s2'). set (pos := pt_pos (s_pt (tick s2))).
        pose proof (same_set_cur pos text _ _ Qs) as Qc. rewrite (same_warns _ _ Qc).
        destruct (run_action _ _ _ _ _ _); apply samev_weak; cbn; repeat split; auto. now apply same_err.
      + exact Q || (destruct Q; split; auto).
      + exact Q.
    - (* choice *) destruct e2; try discriminate I. cbn [inl] in I. unfold step in *. rewrite no_limit in *.
      destruct (choice_follows n rule1 rule2 j v en IH _ _ _ _ I S1 N) as (r & V & Q).
      exists r. split; [apply ev_choice; [apply no_limit|exact V]|].
      destruct (choice_loop _ _ _ _), r; cbn in *; tauto.
    - (* sequence *) destruct e2; try discriminate I. cbn [inl] in I. bs.
      match goal with H : negb v = true |- _ => apply negb_true_iff in H; subst v end.
      unfold step in *. rewrite no_limit in *.
      assert (W : s_pt (tick s1) = s_pt (tick s2) /\ s_warns (tick s1) = s_warns (tick s2)) by (split; [now apply same_pt|now apply same_warns]).
      destruct W as [W1 W2]. rewrite W1, W2 in *.
      destruct (seq_follows n rule1 rule2 (s_pt (tick s2)) (s_warns (tick s2)) j (fun m L => IHn m (proj2 (Nat.lt_succ_r m n) L)) _ _ [] [] en _ _ ltac:(eassumption) S1 N) as (r & V & Q).
      exists r. split; [apply ev_seq; [apply no_limit|exact V]|].
      destruct (seq_loop _ _ _ _ _ _ _), r; cbn in *; tauto.
    - (* label *) destruct e2; try discriminate I. cbn [inl] in I. bs. rewrite (step_lab o g1) in * by apply no_limit.
      assert (N' : eval o g1 n rule1 e1 [] (tick s1) <> OFuel) by (intros E; rewrite E in N; cbn in N; congruence).
      destruct (IH rule1 e1 [] (tick s1) N' j true false e2 rule2 (tick s2) ltac:(assumption) (fun _ => eq_refl) S1) as (r & V & Q).
      eexists. split; [apply ev_lab; [apply no_limit|exact V]|].
      destruct (eval o g1 n rule1 e1 [] (tick s1)) as [x en' s'|en' s'|m x s'|]; destruct r as [x2 en2 s2'|en2 s2'|m2 x2 s2'|]; cbn in Q; try contradiction; cbn [lab_out]; cbn.
      + destruct Q as (Qv & _ & Qs). rewrite (Qv eq_refl). auto.
      + tauto.
      + exact Q.
    - (* not *) destruct e2; try discriminate I. cbn [inl] in I. bs. rewrite (step_not o g1) in * by apply no_limit.
      assert (S1' : same (set_mfinv (negb (s_mfinv (tick s1))) (tick s1)) (set_mfinv (negb (s_mfinv (tick s2))) (tick s2)))
        by (rewrite (same_mfinv _ _ S1); now apply same_set_mfinv).
      assert (N' : eval o g1 n rule1 e1 [] (set_mfinv (negb (s_mfinv (tick s1))) (tick s1)) <> OFuel) by (intros E; rewrite E in N; cbn in N; congruence).
      destruct (IH rule1 e1 [] _ N' j false false e2 rule2 _ I (fun _ => eq_refl) S1') as (r & V & Q).
      eexists. split; [apply ev_not; [apply no_limit|exact V]|].
      assert (F : forall x y, same x y -> same (restore (s_pt (tick s1)) (set_warns (s_warns (tick s1)) (set_mfinv (negb (s_mfinv x)) x)))
        (restore (s_pt (tick s2)) (set_warns (s_warns (tick s2)) (set_mfinv (negb (s_mfinv y)) y)))).
      { intros x y H. rewrite (same_pt _ _ S1), (same_warns _ _ S1), (same_mfinv _ _ H). now apply same_restore, same_set_warns, same_set_mfinv. }
      destruct (eval o g1 n rule1 e1 [] _) as [x en' s'|en' s'|m x s'|]; destruct r as [x2 en2 s2'|en2 s2'|m2 x2 s2'|]; cbn in Q; try contradiction; unfold not_out, samev.
      + split; [auto|]. apply F. tauto.
      + split; [auto|]. split; [auto|]. apply F. tauto.
      + exact Q.
    - (* one or more *) destruct e2; try discriminate I. cbn [inl] in I. rewrite (step_plus o g1) in * by apply no_limit.
      assert (N' : star_loop (eval o g1 n rule1 e1 []) n [] en (tick s1) <> OFuel) by (intros E; rewrite E in N; cbn in N; congruence).
      destruct (star_follows n rule1 rule2 j v e1 e2 IH I n [] [] en en (tick s1) (tick s2) S1 eq_refl (fun _ => eq_refl) N') as (r & V & Q).
      eexists. split; [apply ev_plus; [apply no_limit|exact V]|].
      destruct (star_loop _ _ _ _ _) as [x en' s'|en' s'|m x s'|]; destruct r as [x2 en2 s2'|en2 s2'|m2 x2 s2'|]; try contradiction.
      + destruct Q as ((l & l' & -> & -> & L & A) & -> & -> & Qs). destruct l, l'; try discriminate L; cbn; (split; [|auto]); auto.
        * intros Ev. now rewrite (A Ev).
      + exact Q.
    - (* any number *) destruct e2; try discriminate I. cbn [inl] in I. unfold step in *. rewrite no_limit in *.
      destruct (star_follows n rule1 rule2 j v e1 e2 IH I n [] [] en en (tick s1) (tick s2) S1 eq_refl (fun _ => eq_refl) N) as (r & V & Q).
      exists r. split; [apply ev_star; [apply no_limit|exact V]|].
      destruct (star_loop _ _ _ _ _) as [x en' s'|en' s'|m x s'|]; destruct r as [x2 en2 s2'|en2 s2'|m2 x2 s2'|]; try contradiction.
      + destruct Q as ((l & l' & -> & -> & L & A) & -> & -> & Qs). cbn. split; [|auto]. intros Ev. now rewrite (A Ev).
      + exact Q.
    - (* optional *) destruct e2; try discriminate I. cbn [inl] in I. rewrite (step_opt o g1) in * by apply no_limit.
      assert (N' : eval o g1 n rule1 e1 [] (tick s1) <> OFuel) by (intros E; rewrite E in N; cbn in N; congruence).
      destruct (IH rule1 e1 [] (tick s1) N' j v false e2 rule2 (tick s2) I (fun _ => eq_refl) S1) as (r & V & Q).
      eexists. split; [apply ev_opt; [apply no_limit|exact V]|].
      destruct (eval o g1 n rule1 e1 [] (tick s1)) as [x en' s'|en' s'|m x s'|]; destruct r as [x2 en2 s2'|en2 s2'|m2 x2 s2'|]; cbn in Q; try contradiction; cbn; tauto.
    - (* rule *) assert (D : (exists y, e2 = ERef y) \/ ((match e2 with ERef _ => False | _ => True end))) by (destruct e2; eauto).
      destruct D as [(y & ->)|D].
      + cbn [inl] in I. apply andb_true_iff in I as [Ie I]. apply String.eqb_eq in Ie. subst name.
        destruct (find_rule y g2) as [b2|] eqn:F2; [|discriminate I].
        destruct (rules_same _ _ F2) as (b1 & F1 & I1). rewrite (step_ref o g1 _ _ _ _ b1) in * by (apply no_limit || exact F1).
        assert (N' : eval o g1 n y b1 [] (tick s1) <> OFuel) by (intros E; rewrite E in N; cbn in N; congruence).
        destruct (IH y b1 [] (tick s1) N' J true false b2 y (tick s2) I1 (fun _ => eq_refl) S1) as (r & V & Q).
        eexists. split; [eapply ev_ref; [apply no_limit|exact F2|exact V]|].
        destruct (eval o g1 n y b1 [] (tick s1)) as [x en' s'|en' s'|m x s'|]; destruct r as [x2 en2 s2'|en2 s2'|m2 x2 s2'|]; cbn in Q; try contradiction; cbn; tauto.
      + assert (I' : match find_rule name g1 with Some b1 => inl j v false b1 e2 && (negb k || env_free e2) | None => false end = true)
          by (destruct e2; try contradiction; exact I).
        destruct (find_rule name g1) as [b1|] eqn:F1; [|discriminate I']. apply andb_true_iff in I' as [I1 I2].
        rewrite (step_ref o g1 _ _ _ _ b1) in * by (apply no_limit || exact F1).
        assert (N' : eval o g1 n name b1 [] (tick s1) <> OFuel) by (intros E; rewrite E in N; cbn in N; congruence).
        destruct (IH name b1 [] (tick s1) N' j v false e2 rule2 s2 I1 (fun _ => eq_refl) (same_tick1 _ _ S)) as (r & V & Q).
        destruct k; cbn [negb orb] in I2.
        * exists (with_env en r). split; [exact (free_ev g2 _ _ _ _ _ V I2 en)|].
          destruct (eval o g1 n name b1 [] (tick s1)) as [x en' s'|en' s'|m x s'|]; destruct r as [x2 en2 s2'|en2 s2'|m2 x2 s2'|]; cbn in Q; try contradiction; cbn; tauto.
        * rewrite (Hk eq_refl) in *. exists r. split; [exact V|].
          destruct (eval o g1 n name b1 [] (tick s1)) as [x en' s'|en' s'|m x s'|]; destruct r as [x2 en2 s2'|en2 s2'|m2 x2 s2'|]; cbn in Q; try contradiction; cbn; intuition discriminate.
  Qed.
End Grammars.
