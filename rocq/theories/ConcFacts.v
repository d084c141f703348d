(** Calls of Parse at the same time: what they can return under any schedule. *)
From Coq Require Import List NArith Bool String Arith Lia.
From Verif Require Import Bytes Utf8 F64 Ast Peg Actions Engine Parser GrammarGen Run Conc.
Import ListNotations.

(** ** The state without the shared variable *)
Lemma sf_tick f s : tick (set_ff f s) = set_ff f (tick s). Proof. reflexivity. Qed.
Lemma sf_over o f s : over_limit o (set_ff f s) = over_limit o s. Proof. reflexivity. Qed.
Lemma sf_warns f w s : set_warns w (set_ff f s) = set_ff f (set_warns w s). Proof. reflexivity. Qed.
Lemma sf_mfinv f w s : set_mfinv w (set_ff f s) = set_ff f (set_mfinv w s). Proof. reflexivity. Qed.
Lemma sf_cur f p t s : set_cur p t (set_ff f s) = set_ff f (set_cur p t s). Proof. reflexivity. Qed.
Lemma sf_err f r m p s : add_err_at r m p (set_ff f s) = set_ff f (add_err_at r m p s). Proof. reflexivity. Qed.
Lemma sf_restore f p s : restore p (set_ff f s) = set_ff f (restore p s).
Proof. unfold restore. cbn [s_pt set_ff]. destruct (_ =? _); reflexivity. Qed.
Lemma sf_fail f x p w s : fail_at x p w (set_ff f s) = set_ff f (fail_at x p w s).
Proof. unfold fail_at. cbn [s_mfinv s_mfpos s_mfexp set_ff]. destruct (Bool.eqb _ _); [|reflexivity]. destruct (_ <? _)%nat; [reflexivity|]. destruct (_ <? _)%nat; reflexivity. Qed.
Lemma sf_read o f r s : read o r (set_ff f s) = set_ff f (read o r s).
Proof. unfold read, check_rune. cbn. destruct (_ && _); reflexivity. Qed.
Lemma sf_state o f c s : run_state o c (set_ff f s) = set_ff f (run_state o c s).
Proof. destruct c; cbn; [destruct (s_warns s); reflexivity|]. destruct (_ && _); reflexivity. Qed.
Lemma sf_sf f f' s : set_ff f (set_ff f' s) = set_ff f s. Proof. reflexivity. Qed.
Lemma sf_id s : set_ff (s_ff s) s = s. Proof. destruct s; reflexivity. Qed.

Definition sfo (f : list failure) (r : out) : out :=
  match r with
  | OOk v e s => OOk v e (set_ff f s)
  | OFail e s => OFail e (set_ff f s)
  | OPanic m x s => OPanic m x (set_ff f s)
  | OFuel => OFuel
  end.
Lemma sfo_sfo f f' r : sfo f (sfo f' r) = sfo f r. Proof. destruct r; reflexivity. Qed.
Lemma sf_lit o rule want p rs en f : forall s, lit_loop o rule want p rs en (set_ff f s) = sfo f (lit_loop o rule want p rs en s).
Proof.
  induction rs as [|r rs IH]; intros s; cbn [lit_loop].
  - rewrite sf_fail. reflexivity.
  - cbn [s_pt set_ff]. destruct (_ =? _)%N; [rewrite sf_read; apply IH|]. now rewrite sf_fail, sf_restore.
Qed.
Lemma sf_act o rule a f s r : act_out o rule a (set_ff f s) (sfo f r) = sfo f (act_out o rule a s r).
Proof. destruct r; try reflexivity. cbn. unfold slice_from. cbn. destruct (run_action _ _ _ _ _ _); reflexivity. Qed.
Lemma sf_lab l en f r : lab_out l en (sfo f r) = sfo f (lab_out l en r). Proof. destruct r; reflexivity. Qed.
Lemma sf_opt en f r : opt_out en (sfo f r) = sfo f (opt_out en r). Proof. destruct r; reflexivity. Qed.
Lemma sf_ref en f r : ref_out en (sfo f r) = sfo f (ref_out en r). Proof. destruct r; reflexivity. Qed.
Lemma sf_plus en f r : plus_out en (sfo f r) = sfo f (plus_out en r).
Proof. destruct r; try reflexivity. cbn. destruct v; try reflexivity. destruct l; reflexivity. Qed.
Lemma sf_not en f s r : not_out en (set_ff f s) (sfo f r) = sfo f (not_out en s r).
Proof. destruct r; try reflexivity; cbn [not_out sfo]; unfold restore; cbn [s_pt set_ff s_warns set_warns s_mfinv set_mfinv]; destruct (_ =? _)%nat; reflexivity. Qed.
Lemma act_out_s o rule a f s r : act_out o rule a (set_ff f s) r = act_out o rule a s r.
Proof. reflexivity. Qed.
Lemma not_out_s en f s r : not_out en (set_ff f s) r = not_out en s r.
Proof. reflexivity. Qed.

(** expressions that do not touch the variable *)
Definition local (g : grammar) (e : expr) : bool :=
  match e with
  | EStateCode _ | EAny | EClass _ _ _ _ | ELit _ _ => true
  | ERef n => match find_rule n g with Some _ => false | None => true end
  | _ => false
  end.
Lemma sf_step o g F F' k rule e en f s : local g e = true ->
  step o g F k rule e en (set_ff f s) = sfo f (step o g F' k rule e en s).
Proof.
  intros L. unfold step. rewrite sf_tick, sf_over. destruct (over_limit o (tick s)); [reflexivity|].
  destruct e; try discriminate L.
  - now rewrite sf_state.
  - cbn [s_pt set_ff]. change (at_eof (set_ff f (tick s))) with (at_eof (tick s)). destruct (at_eof (tick s)).
    + now rewrite sf_fail.
    + cbn zeta. now rewrite sf_read, sf_fail.
  - cbn [s_pt set_ff]. change (at_eof (set_ff f (tick s))) with (at_eof (tick s)). destruct (_ && _).
    + cbn zeta. now rewrite sf_read, sf_fail.
    + now rewrite sf_fail.
  - apply sf_lit.
  - cbn in L. destruct (find_rule name g); [discriminate|]. reflexivity.
Qed.

(** ** A call on its own *)
Fixpoint exec {A} (p : prog A) (ff : list failure) : A * list failure :=
  match p with
  | Done a => (a, ff)
  | Get k => exec (k ff) ff
  | Put l k => exec k l
  end.
Lemma exec_bind {A B} (p : prog A) (f : A -> prog B) ff : exec (bindp p f) ff = exec (f (fst (exec p ff))) (snd (exec p ff)).
Proof. revert ff. induction p as [a|k IH|l k IH]; intros ff; cbn; [reflexivity|apply IH|apply IH]. Qed.
Lemma exec_map {A B} (f : A -> B) (p : prog A) ff : exec (mapp f p) ff = (f (fst (exec p ff)), snd (exec p ff)).
Proof. unfold mapp. now rewrite exec_bind. Qed.

(** [same x ff r]: the program result [x] with the variable [ff] is the result [r] *)
Definition matches (p : prog out) (ff : list failure) (r : out) : Prop :=
  let '(x, ff') := exec p ff in sfo ff' x = r.

Section Alone.
  Variable o : settings.
  Variable g : grammar.
  Lemma matches_done x ff r : sfo ff x = r -> matches (Done x) ff r.
  Proof. auto. Qed.
  Lemma matches_map F p ff r : matches p ff r -> (forall f x, F (sfo f x) = sfo f (F x)) -> matches (mapp F p) ff (F r).
  Proof. unfold matches. rewrite exec_map. destruct (exec p ff) as [x ff']. cbn. intros <- H. now rewrite H. Qed.
  Lemma matches_bind p K ff r R : matches p ff r -> (forall x f, sfo f x = r -> matches (K x) f R) -> matches (bindp p K) ff R.
  Proof. unfold matches at 1 3. rewrite exec_bind. destruct (exec p ff) as [x ff']. cbn. intros H HK. exact (HK x ff' H). Qed.

  Lemma matches_push m rule en s ff : matches (ppush m rule en s) ff (OFail en (push_error m (set_ff ff s))).
  Proof.
    unfold ppush, matches, push_error, first_failure. cbn [exec s_ff set_ff s_cpos s_ctext]. change (cur_off (set_ff ff s)) with (cur_off s).
    destruct ff as [|f l]; [reflexivity|]. cbn [exec]. destruct (f_off f <? cur_off s)%nat; [reflexivity|].
    cbn [exec]. destruct (cur_off s =? f_off f)%nat; [|reflexivity]. cbn [exec].
    destruct (existsb _ _); reflexivity.
  Qed.

  Definition hyp (f : string -> expr -> env -> st -> prog out) (F : string -> expr -> env -> st -> out) := forall rule e en s ff, matches (f rule e en s) ff (F rule e en (set_ff ff s)).
  Lemma m_seq (f : string -> expr -> env -> st -> prog out) F rule pt w es : hyp f F -> forall acc en s ff,
    matches (pseq_loop (f rule) pt w es acc en s) ff (seq_loop (F rule) pt w es acc en (set_ff ff s)).
  Proof.
    intros H. induction es as [|e es IH]; intros acc en s ff; cbn; [reflexivity|].
    eapply matches_bind; [apply H|]. intros x f' <-. destruct x; cbn.
    - apply IH.
    - now rewrite sf_warns, sf_restore.
    - reflexivity.
    - reflexivity.
  Qed.
  Lemma m_choice (f : string -> expr -> env -> st -> prog out) F rule es : hyp f F -> forall en s ff,
    matches (pchoice_loop (f rule) es en s) ff (choice_loop (F rule) es en (set_ff ff s)).
  Proof.
    intros H. induction es as [|e es IH]; intros en s ff; cbn; [reflexivity|].
    eapply matches_bind; [apply H|]. intros x f' <-. destruct x; cbn; try reflexivity.
    rewrite sf_warns. apply IH.
  Qed.
  Lemma m_star (f : st -> prog out) F k en : (forall s ff, matches (f s) ff (F (set_ff ff s))) -> forall acc s ff,
    matches (pstar_loop f k acc en s) ff (star_loop F k acc en (set_ff ff s)).
  Proof.
    intros H. induction k as [|k IH]; intros acc s ff; cbn; [reflexivity|].
    eapply matches_bind; [apply H|]. intros x f' <-. destruct x; cbn; try reflexivity. apply IH.
  Qed.
  Lemma m_eval n : hyp (peval o g n) (eval o g n).
  Proof.
    induction n as [|n IH]; intros rule e en s ff; [reflexivity|]. cbn [peval eval].
    destruct (local g e) eqn:L.
    - assert (E : pstep o g (peval o g n) n rule e en s = Done (step o g (fun _ _ _ _ => OFuel) n rule e en s)).
      { unfold pstep. destruct e; try discriminate L; try (unfold step; destruct (over_limit o (tick s)); reflexivity).
        cbn in L. destruct (find_rule name g) eqn:E; [discriminate|].
        unfold step; destruct (over_limit o (tick s)); rewrite ?E; reflexivity. }
      rewrite E. apply matches_done. symmetry. now apply sf_step.
    - unfold pstep, step. rewrite sf_tick, sf_over. destruct (over_limit o (tick s)); [reflexivity|]. set (t := tick s).
      destruct e as [a e'|p|c| |w cs rs i|w rs|es|es|l e'|e'|e'|e'|e'|name]; try discriminate L.
      + pose proof (matches_map (act_out o rule a t) _ _ _ (IH rule e' en t ff) (fun f x => sf_act o rule a f t x)) as M.
        destruct (eval o g n rule e' en (set_ff ff t)); exact M.
      + destruct p; cbn [ppredicate run_predicate]; [reflexivity|apply matches_push|reflexivity].
      + apply m_choice, IH.
      + apply m_seq, IH.
      + pose proof (matches_map (lab_out l en) _ _ _ (IH rule e' [] t ff) (fun f x => sf_lab l en f x)) as M.
        destruct (eval o g n rule e' [] (set_ff ff t)); exact M.
      + rewrite sf_mfinv. set (t' := set_mfinv (negb (s_mfinv (set_ff ff t))) t).
        pose proof (matches_map (not_out en t) _ _ _ (IH rule e' [] t' ff) (fun f x => sf_not en f t x)) as M.
        destruct (eval o g n rule e' [] (set_ff ff t')); exact M.
      + pose proof (matches_map (plus_out en) _ _ _ (m_star _ (eval o g n rule e' []) n en (IH rule e' []) [] t ff) (fun f x => sf_plus en f x)) as M.
        destruct (star_loop (eval o g n rule e' []) n [] en (set_ff ff t)) as [v e1 s1| | |]; [|exact M..].
        destruct v as [|t1|l1|t1| | | | | | | | | | | | | | | | | | | | | |]; try exact M. destruct l1; exact M.
      + apply m_star. intros; apply IH.
      + pose proof (matches_map (opt_out en) _ _ _ (IH rule e' [] t ff) (fun f x => sf_opt en f x)) as M.
        destruct (eval o g n rule e' [] (set_ff ff t)); exact M.
      + cbn in L. destruct (find_rule name g) as [e'|]; [|discriminate].
        pose proof (matches_map (ref_out en) _ _ _ (IH name e' [] t ff) (fun f x => sf_ref en f x)) as M.
        destruct (eval o g n name e' [] (set_ff ff t)); exact M.
  Qed.
End Alone.

Lemma parse_exec opts ff data :
  exec (pparse opts data) ff = parse opts ff data \/ fst (parse opts ff data) = Diverged.
Proof.
  unfold pparse, parse, parse_with. destruct (find_rule _ gen_grammar) as [e|]; [|left; reflexivity].
  set (k := config_of opts). set (n := parse_fuel _). rewrite exec_map.
  pose proof (m_eval (settings_of k) gen_grammar n (k_entry k) e [] (init_st (settings_of k) [] data) ff) as M.
  unfold matches in M. destruct (exec _ _) as [x ff'] eqn:E. cbn [fst snd].
  assert (I : set_ff ff (init_st (settings_of k) [] data) = init_st (settings_of k) ff data).
  { unfold init_st, check_rune. cbn. destruct (_ && _); reflexivity. }
  rewrite I in M. rewrite <- M. destruct x; [left; reflexivity..|]. right. reflexivity.
Qed.

(** ** Under any interference *)
(** every result the program can produce, whatever the reads return *)
Fixpoint always {A} (P : A -> Prop) (p : prog A) : Prop :=
  match p with
  | Done a => P a
  | Get k => forall l, always P (k l)
  | Put _ k => always P k
  end.
Lemma always_bind {A B} (P : A -> Prop) (Q : B -> Prop) (p : prog A) (f : A -> prog B) :
  always P p -> (forall a, P a -> always Q (f a)) -> always Q (bindp p f).
Proof. induction p as [a|k IH|l k IH]; cbn; intros H HF; auto. Qed.
Lemma always_map {A B} (P : A -> Prop) (Q : B -> Prop) (f : A -> B) p :
  always P p -> (forall a, P a -> Q (f a)) -> always Q (mapp f p).
Proof. intros H HF. eapply always_bind; [exact H|]. intros a Ha. exact (HF a Ha). Qed.
Lemma always_impl {A} (P Q : A -> Prop) (p : prog A) : (forall a, P a -> Q a) -> always P p -> always Q p.
Proof. intros H. induction p; cbn; auto. Qed.

Definition broken (x : out) : Prop := exists rule s, x = OPanic index_msg rule s.
Definition close (r x : out) : Prop := sfo [] x = sfo [] r \/ broken x.
Lemma close_map F r x : (forall f x, F (sfo f x) = sfo f (F x)) -> (forall m rule s, F (OPanic m rule s) = OPanic m rule s) ->
  close r x -> close (F r) (F x).
Proof.
  intros H HP [E|(rule & s & ->)].
  - left. now rewrite <- !H, E.
  - right. rewrite HP. now exists rule, s.
Qed.

Section Any.
  Variable o : settings.
  Variable g : grammar.
  Definition eqs (s s' : st) : Prop := set_ff [] s = set_ff [] s'.
  Lemma eqs_sf s s' : eqs s s' -> exists f, s' = set_ff f s.
  Proof. intros E. exists (s_ff s'). destruct s, s'. unfold eqs in E. cbn in *. now injection E as -> -> -> -> -> -> -> -> ->. Qed.
  Lemma eqs_refl s f : eqs s (set_ff f s). Proof. reflexivity. Qed.

  Definition hypa (f : string -> expr -> env -> st -> prog out) (F : string -> expr -> env -> st -> out) :=
    forall rule e en s f', always (close (F rule e en (set_ff f' s))) (f rule e en s).

  Lemma a_push m rule en s r : sfo [] r = OFail en (set_ff [] s) -> always (close r) (ppush m rule en s).
  Proof.
    intros E. assert (O : close r (OFail en s)) by (left; symmetry; exact E).
    assert (X : close r (OPanic index_msg rule s)) by (right; now exists rule, s).
    unfold ppush, first_failure. cbn [always]. intros [|f0 l0]; cbn [always]; [exact O|].
    intros [|f1 l1]; cbn [always]; [exact X|]. destruct (f_off f1 <? cur_off s)%nat; cbn [always]; [exact O|].
    intros [|f2 l2]; cbn [always]; [exact X|]. destruct (cur_off s =? f_off f2)%nat; cbn [always]; [|exact O].
    intros l. destruct (existsb _ _); cbn [always]; [exact O|]. intros _. exact O.
  Qed.
  Lemma sfo_ok r v en s : sfo [] (OOk v en s) = sfo [] r -> exists f, r = OOk v en (set_ff f s).
  Proof. destruct r as [v0 e0 s0|e0 s0|m0 x0 s0|]; cbn; try discriminate. intros E. destruct s, s0. cbn in E. injection E. intros. subst. eexists. reflexivity. Qed.
  Lemma sfo_fail r en s : sfo [] (OFail en s) = sfo [] r -> exists f, r = OFail en (set_ff f s).
  Proof. destruct r as [v0 e0 s0|e0 s0|m0 x0 s0|]; cbn; try discriminate. intros E. destruct s, s0. cbn in E. injection E. intros. subst. eexists. reflexivity. Qed.
  Lemma sfo_panic r m x s : sfo [] (OPanic m x s) = sfo [] r -> exists f, r = OPanic m x (set_ff f s).
  Proof. destruct r as [v0 e0 s0|e0 s0|m0 x0 s0|]; cbn; try discriminate. intros E. destruct s, s0. cbn in E. injection E. intros. subst. eexists. reflexivity. Qed.
  Lemma sfo_fuel r : sfo [] OFuel = sfo [] r -> r = OFuel.
  Proof. destruct r; cbn; try discriminate; auto. Qed.
  Lemma close_sf f r x : sfo [] x = sfo [] r -> close (sfo f r) x.
  Proof. intros E. left. now rewrite sfo_sfo. Qed.

  Lemma a_seq f F rule pt w es : hypa f F -> forall acc en s f',
    always (close (seq_loop (F rule) pt w es acc en (set_ff f' s))) (pseq_loop (f rule) pt w es acc en s).
  Proof.
    intros H. induction es as [|e es IH]; intros acc en s f'; cbn [pseq_loop seq_loop]; [left; reflexivity|].
    eapply always_bind; [apply (H rule e en s f')|]. intros x [E|(r & sx & ->)]; [|right; now exists r, sx].
    destruct x.
    - apply sfo_ok in E as [f1 ->]. apply IH.
    - apply sfo_fail in E as [f1 ->]. left. now rewrite sf_warns, sf_restore.
    - apply sfo_panic in E as [f1 ->]. left. reflexivity.
    - apply sfo_fuel in E as ->. left. reflexivity.
  Qed.
  Lemma a_choice f F rule es : hypa f F -> forall en s f',
    always (close (choice_loop (F rule) es en (set_ff f' s))) (pchoice_loop (f rule) es en s).
  Proof.
    intros H. induction es as [|e es IH]; intros en s f'; cbn [pchoice_loop choice_loop]; [left; reflexivity|].
    eapply always_bind; [apply (H rule e [] s f')|]. intros x [E|(r & sx & ->)]; [|right; now exists r, sx].
    destruct x.
    - apply sfo_ok in E as [f1 ->]. left. reflexivity.
    - apply sfo_fail in E as [f1 ->]. rewrite sf_warns. apply IH.
    - apply sfo_panic in E as [f1 ->]. left. reflexivity.
    - apply sfo_fuel in E as ->. left. reflexivity.
  Qed.
  Lemma a_star (f : st -> prog out) F k en : (forall s f', always (close (F (set_ff f' s))) (f s)) -> forall acc s f',
    always (close (star_loop F k acc en (set_ff f' s))) (pstar_loop f k acc en s).
  Proof.
    intros H. induction k as [|k IH]; intros acc s f'; cbn [pstar_loop star_loop]; [left; reflexivity|].
    eapply always_bind; [apply (H s f')|]. intros x [E|(r & sx & ->)]; [|right; now exists r, sx].
    destruct x.
    - apply sfo_ok in E as [f1 ->]. apply IH.
    - apply sfo_fail in E as [f1 ->]. left. reflexivity.
    - apply sfo_panic in E as [f1 ->]. left. reflexivity.
    - apply sfo_fuel in E as ->. left. reflexivity.
  Qed.
  Lemma a_map F p r : always (close r) p -> (forall f x, F (sfo f x) = sfo f (F x)) ->
    (forall m rule s, F (OPanic m rule s) = OPanic m rule s) -> always (close (F r)) (mapp F p).
  Proof. intros H H1 H2. eapply always_map; [exact H|]. intros a. now apply close_map. Qed.

  Lemma a_eval n : hypa (peval o g n) (eval o g n).
  Proof.
    induction n as [|n IH]; intros rule e en s ff; [left; reflexivity|]. cbn [peval eval].
    destruct (local g e) eqn:L.
    - assert (E : pstep o g (peval o g n) n rule e en s = Done (step o g (fun _ _ _ _ => OFuel) n rule e en s)).
      { unfold pstep. destruct e; try discriminate L; try (unfold step; destruct (over_limit o (tick s)); reflexivity).
        cbn in L. destruct (find_rule name g) eqn:E; [discriminate|].
        unfold step; destruct (over_limit o (tick s)); rewrite ?E; reflexivity. }
      rewrite E. cbn [always]. left. rewrite (sf_step o g _ (fun _ _ _ _ => OFuel) n rule e en ff s L). now rewrite sfo_sfo.
    - unfold pstep, step. rewrite sf_tick, sf_over. destruct (over_limit o (tick s)); [left; reflexivity|]. set (t := tick s).
      destruct e as [a e'|p|c| |w cs rs i|w rs|es|es|l e'|e'|e'|e'|e'|name]; try discriminate L.
      + pose proof (a_map (act_out o rule a t) _ _ (IH rule e' en t ff) (fun f x => sf_act o rule a f t x) (fun _ _ _ => eq_refl)) as M.
        destruct (eval o g n rule e' en (set_ff ff t)); exact M.
      + destruct p; cbn [ppredicate run_predicate]; [left; reflexivity| |left; reflexivity].
        apply a_push. unfold push_error. destruct (s_ff _); [reflexivity|]. destruct (_ <? _)%nat; [reflexivity|].
        destruct (_ =? _)%nat; [|reflexivity]. destruct (existsb _ _); reflexivity.
      + apply a_choice, IH.
      + apply a_seq, IH.
      + pose proof (a_map (lab_out l en) _ _ (IH rule e' [] t ff) (fun f x => sf_lab l en f x) (fun _ _ _ => eq_refl)) as M.
        destruct (eval o g n rule e' [] (set_ff ff t)); exact M.
      + rewrite sf_mfinv. set (t' := set_mfinv (negb (s_mfinv (set_ff ff t))) t).
        pose proof (a_map (not_out en t) _ _ (IH rule e' [] t' ff) (fun f x => sf_not en f t x) (fun _ _ _ => eq_refl)) as M.
        destruct (eval o g n rule e' [] (set_ff ff t')); exact M.
      + pose proof (a_map (plus_out en) _ _ (a_star _ (eval o g n rule e' []) n en (IH rule e' []) [] t ff) (fun f x => sf_plus en f x) (fun _ _ _ => eq_refl)) as M.
        destruct (star_loop (eval o g n rule e' []) n [] en (set_ff ff t)) as [v e1 s1| | |]; [|exact M..].
        destruct v as [|t1|l1|t1| | | | | | | | | | | | | | | | | | | | | |]; try exact M. destruct l1; exact M.
      + apply a_star. intros; apply IH.
      + pose proof (a_map (opt_out en) _ _ (IH rule e' [] t ff) (fun f x => sf_opt en f x) (fun _ _ _ => eq_refl)) as M.
        destruct (eval o g n rule e' [] (set_ff ff t)); exact M.
      + cbn in L. destruct (find_rule name g) as [e'|]; [|discriminate].
        pose proof (a_map (ref_out en) _ _ (IH name e' [] t ff) (fun f x => sf_ref en f x) (fun _ _ _ => eq_refl)) as M.
        destruct (eval o g n name e' [] (set_ff ff t)); exact M.
  Qed.
End Any.

(** What a call that hit an empty slice returns *)
Definition index_failure (opts : list popt) (r : result) : Prop :=
  if k_recover (config_of opts)
  then exists errs p rule, r = Returned VNil (errs ++ [PError p (Some rule) index_msg])
  else r = Panicked index_msg.
Lemma out_result_sf k x r : sfo [] x = sfo [] r -> out_result k x = out_result k r.
Proof.
  intros E. destruct x.
  - apply sfo_ok in E as [f ->]. reflexivity.
  - apply sfo_fail in E as [f ->]. reflexivity.
  - apply sfo_panic in E as [f ->]. reflexivity.
  - apply sfo_fuel in E as ->. reflexivity.
Qed.
Lemma parse_any opts data ff :
  always (fun r => r = fst (parse opts ff data) \/ index_failure opts r) (pparse opts data).
Proof.
  unfold pparse, parse, parse_with. set (k := config_of opts). destruct (find_rule _ gen_grammar) as [e|]; [|left; reflexivity].
  set (n := parse_fuel _).
  assert (I : set_ff ff (init_st (settings_of k) [] data) = init_st (settings_of k) ff data).
  { unfold init_st, check_rune. cbn. destruct (_ && _); reflexivity. }
  eapply always_map; [apply (a_eval (settings_of k) gen_grammar n (k_entry k) e [] _ ff)|]. rewrite I.
  intros x [E|(rule & s & ->)].
  - left. rewrite (out_result_sf _ _ _ E). destruct (eval _ _ _ _ _ _ _); reflexivity.
  - right. unfold index_failure. fold k. cbn [out_result]. destruct (k_recover k); eauto.
Qed.

(** ** Schedules *)
Lemma nth_update {A} (l : list A) i j x : nth_error (update i x l) j =
  if Nat.eqb i j then match nth_error l j with Some _ => Some x | None => None end else nth_error l j.
Proof.
  revert i j. induction l as [|y l IH]; intros i j; cbn.
  - destruct i, j; cbn; try reflexivity. destruct (Nat.eqb i j); reflexivity.
  - destruct i, j; cbn; try reflexivity. apply IH.
Qed.
Lemma always_access {A} (P : A -> Prop) ff (p : prog A) : always P p -> always P (snd (access ff p)).
Proof. destruct p; cbn; auto. Qed.
Definition all_always (P : nat -> answer -> Prop) (m : machine) : Prop :=
  forall i p, nth_error (snd m) i = Some p -> always (P i) p.
Lemma pick_always P i m : all_always P m -> all_always P (pick i m).
Proof.
  intros H j p. unfold pick. destruct (nth_error (snd m) i) as [q|] eqn:E; [|apply H].
  destruct (access (fst m) q) as [ff q'] eqn:A. cbn [snd]. rewrite nth_update. destruct (Nat.eqb_spec i j) as [->|N]; [|apply H].
  rewrite E. intros X. injection X as <-. pose proof (always_access (P j) (fst m) q (H _ _ E)) as K. now rewrite A in K.
Qed.
Lemma schedule_always P is : forall m, all_always P m -> all_always P (schedule is m).
Proof. induction is as [|i is IH]; intros m H; cbn; [exact H|]. apply IH. now apply pick_always. Qed.

(** ** Without resets by other calls *)
Definition ne (l : list failure) : bool := match l with [] => false | _ => true end.
(** every result the program can produce if the variable, once not empty ([x]),
    is not emptied by others *)
Fixpoint mono {A} (P : A -> Prop) (x : bool) (p : prog A) : Prop :=
  match p with
  | Done a => P a
  | Get k => forall l, (x = true -> ne l = true) -> mono P (x || ne l) (k l)
  | Put l k => mono P (ne l) k
  end.
Lemma mono_weaken {A} (P : A -> Prop) p : forall x y, (x = true -> y = true) -> mono P x p -> mono P y p.
Proof.
  induction p as [a|k IH|l k IH]; intros x y Hxy; cbn; auto.
  intros H l Hl. eapply IH; [|apply H; auto]. destruct x; [|destruct (ne l), y; cbn; auto].
  rewrite (Hxy eq_refl). auto.
Qed.
Lemma mono_bind {A B} (P : A -> Prop) (Q : B -> Prop) (p : prog A) (f : A -> prog B) :
  forall x, mono P x p -> (forall a y, P a -> mono Q y (f a)) -> mono Q x (bindp p f).
Proof. induction p as [a|k IH|l k IH]; intros x; cbn; intros H HF; auto. Qed.
Lemma mono_map {A B} (P : A -> Prop) (Q : B -> Prop) (f : A -> B) p x :
  mono P x p -> (forall a, P a -> Q (f a)) -> mono Q x (mapp f p).
Proof. intros H HF. eapply mono_bind; [exact H|]. intros a y Ha. exact (HF a Ha). Qed.

Definition equal (r x : out) : Prop := sfo [] x = sfo [] r.
Section Mono.
  Variable o : settings.
  Variable g : grammar.
  Definition hypm (f : string -> expr -> env -> st -> prog out) (F : string -> expr -> env -> st -> out) :=
    forall rule e en s f' x, mono (equal (F rule e en (set_ff f' s))) x (f rule e en s).
  Lemma n_push m rule en s r x : sfo [] r = OFail en (set_ff [] s) -> mono (equal r) x (ppush m rule en s).
  Proof.
    intros E. assert (O : equal r (OFail en s)) by (symmetry; exact E).
    unfold ppush, first_failure. cbn [mono]. intros [|f0 l0] H0; cbn [mono]; [exact O|]. rewrite orb_true_r.
    intros [|f1 l1] H1; cbn [mono]; [now specialize (H1 eq_refl)|]. destruct (f_off f1 <? cur_off s)%nat; cbn [mono]; [exact O|].
    intros [|f2 l2] H2; cbn [mono]; [now specialize (H2 eq_refl)|]. destruct (cur_off s =? f_off f2)%nat; cbn [mono]; [|exact O].
    intros l _. destruct (existsb _ _); cbn [mono]; [exact O|]. intros ? _. exact O.
  Qed.
  Lemma n_seq f F rule pt w es : hypm f F -> forall acc en s f' x,
    mono (equal (seq_loop (F rule) pt w es acc en (set_ff f' s))) x (pseq_loop (f rule) pt w es acc en s).
  Proof.
    intros H. induction es as [|e es IH]; intros acc en s f' x; cbn [pseq_loop seq_loop]; [reflexivity|].
    eapply mono_bind; [apply (H rule e en s f')|]. intros r y E. destruct r.
    - apply sfo_ok in E as [f1 ->]. apply IH.
    - apply sfo_fail in E as [f1 ->]. red. now rewrite sf_warns, sf_restore.
    - apply sfo_panic in E as [f1 ->]. reflexivity.
    - apply sfo_fuel in E as ->. reflexivity.
  Qed.
  Lemma n_choice f F rule es : hypm f F -> forall en s f' x,
    mono (equal (choice_loop (F rule) es en (set_ff f' s))) x (pchoice_loop (f rule) es en s).
  Proof.
    intros H. induction es as [|e es IH]; intros en s f' x; cbn [pchoice_loop choice_loop]; [reflexivity|].
    eapply mono_bind; [apply (H rule e [] s f')|]. intros r y E. destruct r.
    - apply sfo_ok in E as [f1 ->]. reflexivity.
    - apply sfo_fail in E as [f1 ->]. rewrite sf_warns. apply IH.
    - apply sfo_panic in E as [f1 ->]. reflexivity.
    - apply sfo_fuel in E as ->. reflexivity.
  Qed.
  Lemma n_star (f : st -> prog out) F k en : (forall s f' x, mono (equal (F (set_ff f' s))) x (f s)) -> forall acc s f' x,
    mono (equal (star_loop F k acc en (set_ff f' s))) x (pstar_loop f k acc en s).
  Proof.
    intros H. induction k as [|k IH]; intros acc s f' x; cbn [pstar_loop star_loop]; [reflexivity|].
    eapply mono_bind; [apply (H s f')|]. intros r y E. destruct r.
    - apply sfo_ok in E as [f1 ->]. apply IH.
    - apply sfo_fail in E as [f1 ->]. reflexivity.
    - apply sfo_panic in E as [f1 ->]. reflexivity.
    - apply sfo_fuel in E as ->. reflexivity.
  Qed.
  Lemma n_map F p r x : mono (equal r) x p -> (forall f x, F (sfo f x) = sfo f (F x)) -> mono (equal (F r)) x (mapp F p).
  Proof. intros H H1. eapply mono_map; [exact H|]. intros a E. red. red in E. now rewrite <- !H1, E. Qed.

  Lemma n_eval n : hypm (peval o g n) (eval o g n).
  Proof.
    induction n as [|n IH]; intros rule e en s ff x; [reflexivity|]. cbn [peval eval].
    destruct (local g e) eqn:L.
    - assert (E : pstep o g (peval o g n) n rule e en s = Done (step o g (fun _ _ _ _ => OFuel) n rule e en s)).
      { unfold pstep. destruct e; try discriminate L; try (unfold step; destruct (over_limit o (tick s)); reflexivity).
        cbn in L. destruct (find_rule name g) eqn:E; [discriminate|].
        unfold step; destruct (over_limit o (tick s)); rewrite ?E; reflexivity. }
      rewrite E. cbn [mono]. red. rewrite (sf_step o g _ (fun _ _ _ _ => OFuel) n rule e en ff s L). now rewrite sfo_sfo.
    - unfold pstep, step. rewrite sf_tick, sf_over. destruct (over_limit o (tick s)); [reflexivity|]. set (t := tick s).
      destruct e as [a e'|p|c| |w cs rs i|w rs|es|es|l e'|e'|e'|e'|e'|name]; try discriminate L.
      + pose proof (n_map (act_out o rule a t) _ _ x (IH rule e' en t ff x) (fun f x => sf_act o rule a f t x)) as M.
        destruct (eval o g n rule e' en (set_ff ff t)); exact M.
      + destruct p; cbn [ppredicate run_predicate]; [reflexivity| |reflexivity].
        apply n_push. unfold push_error. destruct (s_ff _); [reflexivity|]. destruct (_ <? _)%nat; [reflexivity|].
        destruct (_ =? _)%nat; [|reflexivity]. destruct (existsb _ _); reflexivity.
      + apply n_choice, IH.
      + apply n_seq, IH.
      + pose proof (n_map (lab_out l en) _ _ x (IH rule e' [] t ff x) (fun f x => sf_lab l en f x)) as M.
        destruct (eval o g n rule e' [] (set_ff ff t)); exact M.
      + rewrite sf_mfinv. set (t' := set_mfinv (negb (s_mfinv (set_ff ff t))) t).
        pose proof (n_map (not_out en t) _ _ x (IH rule e' [] t' ff x) (fun f x => sf_not en f t x)) as M.
        destruct (eval o g n rule e' [] (set_ff ff t')); exact M.
      + pose proof (n_map (plus_out en) _ _ x (n_star _ (eval o g n rule e' []) n en (IH rule e' []) [] t ff x) (fun f x => sf_plus en f x)) as M.
        destruct (star_loop (eval o g n rule e' []) n [] en (set_ff ff t)) as [v e1 s1| | |]; [|exact M..].
        destruct v as [|t1|l1|t1| | | | | | | | | | | | | | | | | | | | | |]; try exact M. destruct l1; exact M.
      + apply n_star. intros; apply IH.
      + pose proof (n_map (opt_out en) _ _ x (IH rule e' [] t ff x) (fun f x => sf_opt en f x)) as M.
        destruct (eval o g n rule e' [] (set_ff ff t)); exact M.
      + cbn in L. destruct (find_rule name g) as [e'|]; [|discriminate].
        pose proof (n_map (ref_out en) _ _ x (IH name e' [] t ff x) (fun f x => sf_ref en f x)) as M.
        destruct (eval o g n name e' [] (set_ff ff t)); exact M.
  Qed.
End Mono.
Lemma parse_mono opts data ff x : mono (fun r => r = fst (parse opts ff data)) x (pparse opts data).
Proof.
  unfold pparse, parse, parse_with. set (k := config_of opts). destruct (find_rule _ gen_grammar) as [e|]; [|reflexivity].
  set (n := parse_fuel _).
  assert (I : set_ff ff (init_st (settings_of k) [] data) = init_st (settings_of k) ff data).
  { unfold init_st, check_rune. cbn. destruct (_ && _); reflexivity. }
  eapply mono_map; [apply (n_eval (settings_of k) gen_grammar n (k_entry k) e [] _ ff)|]. rewrite I.
  intros r E. rewrite (out_result_sf _ _ _ E). destruct (eval _ _ _ _ _ _ _); reflexivity.
Qed.

(** programs that never empty the variable *)
Fixpoint keeps {A} (p : prog A) : Prop :=
  match p with
  | Done _ => True
  | Get k => forall l, keeps (k l)
  | Put l k => ne l = true /\ keeps k
  end.
Lemma keeps_bind {A B} (p : prog A) (f : A -> prog B) : keeps p -> (forall a, keeps (f a)) -> keeps (bindp p f).
Proof. induction p as [a|k IH|l k IH]; cbn; intros H HF; auto. destruct H. auto. Qed.
Lemma keeps_map {A B} (f : A -> B) p : keeps p -> keeps (mapp f p).
Proof. intros H. apply keeps_bind; [exact H|]. intros a. exact I. Qed.

(** no reset in the expression *)
Fixpoint noreset (e : expr) : bool :=
  match e with
  | EAndCode PInitParser => false
  | EAct _ e | ELab _ e | ENot e | EPlus e | EStar e | EOpt e => noreset e
  | EChoice l | ESeq l => forallb noreset l
  | ERef n => negb (String.eqb n "init")
  | _ => true
  end.
Section Keeps.
  Variable o : settings.
  Variable g : grammar.
  Hypothesis Hg : forall n e, String.eqb n "init" = false -> find_rule n g = Some e -> noreset e = true.
  Definition hypk (f : string -> expr -> env -> st -> prog out) := forall rule e en s, noreset e = true -> keeps (f rule e en s).
  Lemma k_push m rule en s : keeps (ppush m rule en s).
  Proof.
    unfold ppush, first_failure. cbn [keeps]. intros [|f0 l0]; cbn [keeps]; [now split|].
    intros [|f1 l1]; cbn [keeps]; [exact I|]. destruct (f_off f1 <? cur_off s)%nat; cbn [keeps]; [now split|].
    intros [|f2 l2]; cbn [keeps]; [exact I|]. destruct (cur_off s =? f_off f2)%nat; cbn [keeps]; [|exact I].
    intros l. destruct (existsb _ _); cbn [keeps]; [exact I|]. intros []; now split.
  Qed.
  Lemma k_seq f rule pt w es : hypk f -> forallb noreset es = true -> forall acc en s, keeps (pseq_loop (f rule) pt w es acc en s).
  Proof.
    intros H. induction es as [|e es IH]; intros N acc en s; cbn [pseq_loop]; [exact I|]. cbn in N. apply andb_true_iff in N as [N1 N2].
    apply keeps_bind; [now apply H|]. intros []; cbn [keeps]; auto.
  Qed.
  Lemma k_choice f rule es : hypk f -> forallb noreset es = true -> forall en s, keeps (pchoice_loop (f rule) es en s).
  Proof.
    intros H. induction es as [|e es IH]; intros N en s; cbn [pchoice_loop]; [exact I|]. cbn in N. apply andb_true_iff in N as [N1 N2].
    apply keeps_bind; [now apply H|]. intros []; cbn [keeps]; auto.
  Qed.
  Lemma k_star (f : st -> prog out) k en : (forall s, keeps (f s)) -> forall acc s, keeps (pstar_loop f k acc en s).
  Proof.
    intros H. induction k as [|k IH]; intros acc s; cbn [pstar_loop]; [exact I|].
    apply keeps_bind; [now apply H|]. intros []; cbn [keeps]; auto.
  Qed.
  Lemma k_eval n : hypk (peval o g n).
  Proof.
    induction n as [|n IH]; intros rule e en s N; [exact I|]. cbn [peval]. unfold pstep.
    destruct (over_limit o (tick s)); [exact I|]. set (t := tick s).
    destruct e as [a e'|p|c| |w cs rs i|w rs|es|es|l e'|e'|e'|e'|e'|name]; cbn in N; try exact I; try (apply keeps_map; now apply IH).
    - destruct p; [discriminate|apply k_push|split; [reflexivity|exact I]].
    - now apply k_choice.
    - now apply k_seq.
    - apply keeps_map, k_star. intros. now apply IH.
    - apply k_star. intros. now apply IH.
    - destruct (find_rule name g) as [e'|] eqn:E; [|exact I]. apply keeps_map, IH. apply negb_true_iff in N. now apply (Hg name).
  Qed.
End Keeps.

Lemma gen_keeps : forall n e, String.eqb n "init" = false -> find_rule n gen_grammar = Some e -> noreset e = true.
Proof.
  assert (F : forallb (fun x => String.eqb (fst x) "init" || noreset (snd x)) gen_grammar = true) by (vm_compute; reflexivity).
  intros n e N. revert F. generalize gen_grammar. intros l F H. induction l as [|[m e'] l IH]; cbn in *; [discriminate|].
  apply andb_true_iff in F as [F1 F2]. destruct (String.eqb_spec m n) as [->|D].
  - injection H as ->. rewrite N in F1. exact F1.
  - now apply IH.
Qed.

(** a call of Parse empties the variable at most once, with its first access *)
Definition begins {A} (p : prog A) : Prop := keeps p \/ exists k, p = Put [] k /\ keeps k.
Lemma begins_bind {A B} (p : prog A) (f : A -> prog B) : begins p -> (forall a, keeps (f a)) -> begins (bindp p f).
Proof.
  intros [H|(k & -> & H)] HF; [left; now apply keeps_bind|]. right. exists (bindp k f). split; [reflexivity|]. now apply keeps_bind.
Qed.
Lemma begins_map {A B} (f : A -> B) p : begins p -> begins (mapp f p).
Proof. intros H. apply begins_bind; [exact H|]. intros a. exact I. Qed.
Lemma init_shape : exists a x, gen_init = EAct a (ESeq [EStateCode SInitState; EAndCode PInitParser; x]) /\ noreset x = true.
Proof. eexists _, _. split; [reflexivity|]. vm_compute. reflexivity. Qed.
Lemma parse_begins opts data : begins (pparse opts data).
Proof.
  unfold pparse. set (k := config_of opts). set (o := settings_of k). destruct (find_rule _ gen_grammar) as [e|] eqn:E; [|left; exact I].
  apply begins_map. destruct (String.eqb (k_entry k) "init") eqn:N.
  - apply String.eqb_eq in N. rewrite N in *. destruct init_shape as (a & x & G & R).
    assert (E' : e = gen_init) by (vm_compute in E; injection E as <-; reflexivity). rewrite E', G. clear E E' G.
    unfold parse_fuel. change (S (List.length data) * fuel_factor) with (S (S (S (597 + List.length data * fuel_factor)))).
    generalize (597 + List.length data * fuel_factor). intros n. set (s0 := init_st _ _ _). clearbody s0.
    cbn [peval]. set (f := pstep o gen_grammar (peval o gen_grammar n) n).
    unfold pstep at 1. destruct (over_limit o (tick s0)); [left; exact I|]. apply begins_map.
    unfold pstep at 1. set (s1 := tick s0). destruct (over_limit o (tick s1)); [left; exact I|]. cbn [pseq_loop].
    unfold f at 1, pstep at 1. cbn [bindp]. unfold step. destruct (over_limit o (tick (tick s1))); [left; exact I|]. cbn [bindp].
    unfold f at 1, pstep at 1. set (s2 := tick (run_state _ _ _)). destruct (over_limit o s2); [left; exact I|]. cbn [ppredicate bindp].
    right. eexists. split; [reflexivity|]. apply keeps_bind.
    + apply (k_eval o gen_grammar gen_keeps (S n)). exact R.
    + intros []; exact I.
  - left. apply (k_eval o gen_grammar gen_keeps). now apply (gen_keeps (k_entry k)).
Qed.

Lemma keeps_access {A} ff (p : prog A) : keeps p -> keeps (snd (access ff p)).
Proof. destruct p; cbn; auto. intros []; auto. Qed.
Lemma begins_access {A} ff (p : prog A) : begins p -> keeps (snd (access ff p)).
Proof. intros [H|(k & -> & H)]; [now apply keeps_access|exact H]. Qed.
Lemma start_begins c : begins (start c).
Proof.
  destruct c as [opts data|]; cbn [start]; apply begins_map; [apply parse_begins|]. left.
  unfold pfarthest, first_failure. cbn [keeps]. intros [|f0 l0]; cbn [keeps]; [exact I|].
  intros [|f1 l1]; cbn [keeps]; [exact I|]. intros [|f2 l2]; cbn [keeps]; [exact I|]. intros [|f3 l3]; cbn [keeps]; auto.
Qed.
(** the calls after some accesses: [seen] have made one *)
Definition begun (seen : list nat) (m : machine) : Prop :=
  forall j p, nth_error (snd m) j = Some p -> begins p /\ (In j seen -> keeps p).
Lemma pick_nth i m j p : nth_error (snd (pick i m)) j = Some p ->
  exists q, nth_error (snd m) j = Some q /\ ((i <> j /\ p = q) \/ (i = j /\ p = snd (access (fst m) q))).
Proof.
  unfold pick. destruct (nth_error (snd m) i) as [q|] eqn:E; cbn.
  - destruct (access (fst m) q) as [ff q'] eqn:A. cbn [snd]. rewrite nth_update. destruct (Nat.eqb_spec i j) as [->|N].
    + rewrite E. intros X. injection X as <-. exists q. split; [reflexivity|]. right. split; [reflexivity|]. now rewrite A.
    + intros X. exists p. split; [exact X|]. left. now split.
  - intros X. exists p. split; [exact X|]. left. split; [|reflexivity]. intros ->. congruence.
Qed.
Lemma pick_begun i seen m : begun seen m -> begun (i :: seen) (pick i m).
Proof.
  intros H j p X. apply pick_nth in X as (q & Q & [[N ->]|[-> ->]]).
  - destruct (H _ _ Q) as [B K]. split; [exact B|]. intros [->|X]; [congruence|auto].
  - destruct (H _ _ Q) as [B K]. pose proof (begins_access (fst m) q B). split; [now left|auto].
Qed.
Lemma schedule_begun is : forall seen m, begun seen m -> exists seen', begun seen' (schedule is m) /\ forall j, In j is \/ In j seen -> In j seen'.
Proof.
  induction is as [|i is IH]; intros seen m H; cbn [schedule fold_left].
  - exists seen. split; [exact H|]. intros j [[]|X]; exact X.
  - destruct (IH (i :: seen) (pick i m) (pick_begun i seen m H)) as (seen' & B & S). exists seen'. split; [exact B|].
    intros j [[->|X]|X]; apply S; [right; now left|now left|right; now right].
Qed.
Lemma schedule_untouched i is : forall m, ~ In i is -> nth_error (snd (schedule is m)) i = nth_error (snd m) i.
Proof.
  induction is as [|j is IH]; intros m N; [reflexivity|]. cbn [schedule fold_left]. fold (schedule is (pick j m)). rewrite IH by (intros X; apply N; now right).
  unfold pick. destruct (nth_error (snd m) j) as [q|]; [|reflexivity]. destruct (access (fst m) q). cbn [snd]. rewrite nth_update.
  destruct (Nat.eqb_spec j i) as [->|]; [|reflexivity]. exfalso. apply N. now left.
Qed.
Lemma mono_access {A} (P : A -> Prop) ff (p : prog A) : mono P (ne ff) p -> mono P (ne (fst (access ff p))) (snd (access ff p)).
Proof. destruct p as [a|k|l k]; cbn; auto. intros H. specialize (H ff (fun X => X)). now destruct (ne ff). Qed.
Lemma keeps_ne {A} ff (p : prog A) : keeps p -> ne ff = true -> ne (fst (access ff p)) = true.
Proof. destruct p; cbn; auto. now intros [-> _]. Qed.
(** while only calls that have begun run beside call [i] *)
Lemma schedule_mono P i is : forall m p, nth_error (snd m) i = Some p -> mono P (ne (fst m)) p ->
  (forall j q, In j is -> j <> i -> nth_error (snd m) j = Some q -> keeps q) ->
  exists p', nth_error (snd (schedule is m)) i = Some p' /\ mono P (ne (fst (schedule is m))) p'.
Proof.
  induction is as [|j is IH]; intros m p E M K; [now exists p|]. cbn [schedule fold_left]. fold (schedule is (pick j m)).
  assert (K' : forall j' q, In j' is -> j' <> i -> nth_error (snd (pick j m)) j' = Some q -> keeps q).
  { intros j' q I1 I2 X. apply pick_nth in X as (q0 & Q & [[N ->]|[-> ->]]).
    - apply (K j'); auto. now right.
    - apply keeps_access. apply (K j'); auto. now right. }
  destruct (Nat.eq_dec j i) as [->|N].
  - apply (IH (pick i m) (snd (access (fst m) p))); auto.
    + unfold pick. rewrite E. destruct (access (fst m) p) as [ff p'] eqn:A. cbn [snd]. rewrite nth_update, Nat.eqb_refl, E. reflexivity.
    + unfold pick. rewrite E. pose proof (mono_access P (fst m) p M) as X. destruct (access (fst m) p) as [ff p']. exact X.
  - apply (IH (pick j m) p); auto.
    + unfold pick. destruct (nth_error (snd m) j) as [q|]; [|exact E]. destruct (access (fst m) q). cbn [snd]. rewrite nth_update.
      destruct (Nat.eqb_spec j i); [congruence|exact E].
    + unfold pick. destruct (nth_error (snd m) j) as [q|] eqn:Q; [|exact M].
      assert (KQ : keeps q) by (apply (K j); auto; now left).
      pose proof (keeps_ne (fst m) q KQ) as X. destruct (access (fst m) q) as [ff q']. cbn [fst] in *. eapply mono_weaken; [exact X|exact M].
Qed.

(** ** Every call finishes *)
Lemma pick_done j i m a : nth_error (snd m) i = Some (Done a) -> nth_error (snd (pick j m)) i = Some (Done a).
Proof.
  intros E. unfold pick. destruct (nth_error (snd m) j) as [q|] eqn:Q; [|exact E]. destruct (access (fst m) q) as [ff q'] eqn:A. cbn [snd].
  rewrite nth_update. destruct (Nat.eqb_spec j i) as [->|]; [|exact E]. rewrite E in *. injection Q as <-. cbn in A. now injection A as _ <-.
Qed.
Definition prefix_of (sch : nat -> nat) (n : nat) : list nat := map sch (seq 0 n).
Lemma prefix_S sch n : prefix_of sch (S n) = prefix_of sch n ++ [sch n].
Proof. unfold prefix_of. now rewrite seq_S, map_app. Qed.
Lemma schedule_app s1 s2 m : schedule (s1 ++ s2) m = schedule s2 (schedule s1 m).
Proof. apply fold_left_app. Qed.
Lemma done_stays sch i a m n k : nth_error (snd (schedule (prefix_of sch n) m)) i = Some (Done a) ->
  nth_error (snd (schedule (prefix_of sch (n + k)) m)) i = Some (Done a).
Proof.
  intros E. induction k as [|k IH]; [now rewrite Nat.add_0_r|]. rewrite Nat.add_succ_r, prefix_S, schedule_app. cbn. now apply pick_done.
Qed.
Lemma waits sch i m : forall k n p, nth_error (snd (schedule (prefix_of sch n) m)) i = Some p ->
  (forall t, n <= t < n + k -> sch t <> i) -> nth_error (snd (schedule (prefix_of sch (n + k)) m)) i = Some p.
Proof.
  induction k as [|k IH]; intros n p E H; [now rewrite Nat.add_0_r|]. rewrite Nat.add_succ_r, prefix_S, schedule_app.
  rewrite schedule_untouched; [apply IH; auto; intros t Ht; apply H; lia|]. intros [X|[]]. apply (H (n + k)); [lia|exact X].
Qed.
Lemma next_turn (sch : nat -> nat) i : (forall t, exists t', t <= t' /\ sch t' = i) -> forall t, exists k, sch (t + k) = i /\ forall u, t <= u < t + k -> sch u <> i.
Proof.
  intros F t. destruct (F t) as (t' & L & E). remember (t' - t) as d. revert t' L E Heqd. induction d as [d IH] using lt_wf_ind. intros t' L E ->.
  destruct (Nat.eq_dec (t' - t) 0) as [Z|Z].
  - exists 0. split; [now replace (t + 0) with t' by lia|]. intros u Hu. lia.
  - destruct (In_dec Nat.eq_dec i (map sch (seq t (t' - t)))) as [X|X].
    + apply in_map_iff in X as (u & U & Hu). apply in_seq in Hu. apply (IH (u - t)) with u; auto; lia.
    + exists (t' - t). split; [now replace (t + (t' - t)) with t' by lia|]. intros u Hu X'. apply X. apply in_map_iff. exists u. split; [exact X'|]. apply in_seq. lia.
Qed.
Lemma finishes (sch : nat -> nat) i m : (forall t, exists t', t <= t' /\ sch t' = i) -> forall p n,
  nth_error (snd (schedule (prefix_of sch n) m)) i = Some p -> exists n' a, nth_error (snd (schedule (prefix_of sch n') m)) i = Some (Done a).
Proof.
  intros F. induction p as [a|k IH|l k IH]; intros n E; [now exists n, a| |].
  all: destruct (next_turn sch i F n) as (d & T & W); pose proof (waits sch i m d n _ E W) as E1.
  all: assert (E2 : nth_error (snd (schedule (prefix_of sch (S (n + d))) m)) i =
      match nth_error (snd (schedule (prefix_of sch (n + d)) m)) i with Some q => Some (snd (access (fst (schedule (prefix_of sch (n + d)) m)) q)) | None => None end)
    by (rewrite prefix_S, schedule_app, T; cbn [schedule fold_left]; unfold pick; rewrite E1; destruct (access _ _) eqn:A; cbn [snd]; rewrite nth_update, Nat.eqb_refl, E1; reflexivity).
  all: rewrite E1 in E2; cbn [access snd] in E2; eapply IH; exact E2.
Qed.

(** ** A call that runs alone *)
Lemma update_update {A} i (x y : A) l : update i x (update i y l) = update i x l.
Proof. revert i. induction l as [|z l IH]; intros [|i]; cbn; auto. now rewrite IH. Qed.
Lemma update_id {A} i (x : A) l : nth_error l i = Some x -> update i x l = l.
Proof. revert i. induction l as [|z l IH]; intros [|i]; cbn; intros E; try discriminate; [now injection E as ->|]. now rewrite IH. Qed.
Lemma alone i (p : prog answer) : forall m, nth_error (snd m) i = Some p ->
  exists k, forall n, k <= n -> schedule (repeat i n) m = (snd (exec p (fst m)), update i (Done (fst (exec p (fst m)))) (snd m)).
Proof.
  assert (D : forall a n m, nth_error (snd m) i = Some (Done a) -> schedule (repeat i n) m = m).
  { intros a n. induction n as [|n IH]; intros m E; [reflexivity|]. cbn [repeat schedule fold_left]. fold (schedule (repeat i n) (pick i m)).
    assert (P : pick i m = m). { unfold pick. rewrite E. cbn [access]. rewrite update_id; auto. now destruct m. } rewrite P. now apply IH. }
  induction p as [a|k IH|l k IH]; intros m E.
  - exists 0. intros n _. rewrite (D a) by exact E. cbn. rewrite update_id by exact E. now destruct m.
  - destruct (IH (fst m) (pick i m)) as (d & H).
    { unfold pick. rewrite E. cbn [access snd]. now rewrite nth_update, Nat.eqb_refl, E. }
    exists (S d). intros n L. destruct n as [|n]; [lia|]. cbn [repeat schedule fold_left]. fold (schedule (repeat i n) (pick i m)).
    rewrite H by lia. unfold pick. rewrite E. cbn [access fst snd exec]. now rewrite update_update.
  - destruct (IH (l, update i k (snd m))) as (d & H).
    { cbn [snd]. now rewrite nth_update, Nat.eqb_refl, E. }
    exists (S d). intros n L. destruct n as [|n]; [lia|]. cbn [repeat schedule fold_left]. fold (schedule (repeat i n) (pick i m)).
    unfold pick. rewrite E. cbn [access]. rewrite H by lia. cbn [fst snd exec]. now rewrite update_update.
Qed.
