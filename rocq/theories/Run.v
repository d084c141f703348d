(** The parser runtime as a big-step relation without fuel, equivalent to
    [eval] of Engine.v; proofs about runs are inductions on it. *)
From Coq Require Import List NArith Bool String Arith Lia.
From Verif Require Import Bytes Utf8 F64 Ast Peg Actions Engine.
Import ListNotations.

Section Run.
  Variable o : settings.
  Variable g : grammar.

  Definition act_out (rule : string) (a : action) (s : st) (r : out) : out :=
    match r with
    | OOk _ en' s1 =>
        let text := slice_from (s_pt s) s1 in
        let pos := pt_pos (s_pt s) in
        let s2 := set_cur pos text s1 in
        match run_action (o_ignore o) (s_warns s2) a en' pos text with
        | RVal v => OOk v en' s2
        | RErr v m => OOk v en' (add_err_at (Some rule) m pos s2)
        | RPanic m => OPanic m rule s2
        end
    | x => x
    end.
  Definition lab_out (l : string) (en : env) (r : out) : out :=
    match r with
    | OOk v _ s' => OOk v (bind l v en) s'
    | OFail _ s' => OFail en s'
    | x => x
    end.
  Definition not_out (en : env) (s : st) (r : out) : out :=
    let fin s' := restore (s_pt s) (set_warns (s_warns s) (set_mfinv (negb (s_mfinv s')) s')) in
    match r with
    | OOk _ _ s' => OFail en (fin s')
    | OFail _ s' => OOk VNil en (fin s')
    | x => x
    end.
  Definition plus_out (en : env) (r : out) : out :=
    match r with OOk (VList []) _ s' => OFail en s' | x => x end.
  Definition opt_out (en : env) (r : out) : out :=
    match r with
    | OOk v _ s' => OOk v en s'
    | OFail _ s' => OOk VNil en s'
    | x => x
    end.
  Definition ref_out (en : env) (r : out) : out :=
    match r with
    | OOk v _ s' => OOk v en s'
    | OFail _ s' => OFail en s'
    | x => x
    end.
  (** Expressions without parts *)
  Definition prim_out (rule : string) (e : expr) (en : env) (s : st) : option out :=
    match e with
    | EAndCode p => Some (run_predicate rule p en s)
    | EStateCode c => Some (OOk VNil en (run_state o c s))
    | EAny =>
        Some (if at_eof s then OFail en (fail_at false (pt_pos (s_pt s)) "." s)
              else
                let s1 := fail_at true (pt_pos (s_pt s)) "." (read o (Some rule) s) in
                OOk (VBytes (slice_from (s_pt s) s1)) en s1)
    | EClass want chars ranges inv =>
        Some (if negb (at_eof s) && class_match chars ranges inv (fst (decode_rune (pt_rest (s_pt s))))
              then
                let s1 := fail_at true (pt_pos (s_pt s)) want (read o (Some rule) s) in
                OOk (VBytes (slice_from (s_pt s) s1)) en s1
              else OFail en (fail_at false (pt_pos (s_pt s)) want s))
    | ELit want rs => Some (lit_loop o rule want (s_pt s) rs en s)
    | ERef name =>
        match find_rule name g with
        | Some _ => None
        | None => Some (OFail en (add_err_at (Some rule) (MText (b "undefined rule: " ++ b name))
                          (pt_pos (s_pt s)) s))
        end
    | _ => None
    end.

  Inductive ev : string -> expr -> env -> st -> out -> Prop :=
  | ev_limit rule e en s :
      over_limit o (tick s) = true -> ev rule e en s (OPanic max_expr_msg rule (tick s))
  | ev_prim rule e en s r :
      over_limit o (tick s) = false -> prim_out rule e en (tick s) = Some r -> ev rule e en s r
  | ev_act rule a e en s r :
      over_limit o (tick s) = false -> ev rule e en (tick s) r ->
      ev rule (EAct a e) en s (act_out rule a (tick s) r)
  | ev_lab rule l e en s r :
      over_limit o (tick s) = false -> ev rule e [] (tick s) r ->
      ev rule (ELab l e) en s (lab_out l en r)
  | ev_not rule e en s r :
      over_limit o (tick s) = false ->
      ev rule e [] (set_mfinv (negb (s_mfinv (tick s))) (tick s)) r ->
      ev rule (ENot e) en s (not_out en (tick s) r)
  | ev_opt rule e en s r :
      over_limit o (tick s) = false -> ev rule e [] (tick s) r ->
      ev rule (EOpt e) en s (opt_out en r)
  | ev_ref rule name e en s r :
      over_limit o (tick s) = false -> find_rule name g = Some e -> ev name e [] (tick s) r ->
      ev rule (ERef name) en s (ref_out en r)
  | ev_seq rule es en s r :
      over_limit o (tick s) = false ->
      evs rule (s_pt s) (s_warns s) es [] en (tick s) r ->
      ev rule (ESeq es) en s r
  | ev_choice rule es en s r :
      over_limit o (tick s) = false -> evc rule es en (tick s) r -> ev rule (EChoice es) en s r
  | ev_star rule e en s r :
      over_limit o (tick s) = false -> evt rule e [] en (tick s) r -> ev rule (EStar e) en s r
  | ev_plus rule e en s r :
      over_limit o (tick s) = false -> evt rule e [] en (tick s) r ->
      ev rule (EPlus e) en s (plus_out en r)
  (* elements of a sequence *)
  with evs : string -> point -> option (list position) -> list expr -> list val -> env -> st -> out -> Prop :=
  | evs_nil rule pt w acc en s : evs rule pt w [] acc en s (OOk (VList (rev acc)) en s)
  | evs_ok rule pt w e es acc en s v en' s' r :
      ev rule e en s (OOk v en' s') -> evs rule pt w es (v :: acc) en' s' r ->
      evs rule pt w (e :: es) acc en s r
  | evs_fail rule pt w e es acc en s en' s' :
      ev rule e en s (OFail en' s') ->
      evs rule pt w (e :: es) acc en s (OFail en' (restore pt (set_warns w s')))
  | evs_panic rule pt w e es acc en s m x s' :
      ev rule e en s (OPanic m x s') -> evs rule pt w (e :: es) acc en s (OPanic m x s')
  (* alternatives *)
  with evc : string -> list expr -> env -> st -> out -> Prop :=
  | evc_nil rule en s : evc rule [] en s (OFail en s)
  | evc_ok rule e es en s v en' s' :
      ev rule e [] s (OOk v en' s') -> evc rule (e :: es) en s (OOk v en s')
  | evc_next rule e es en s en' s' r :
      ev rule e [] s (OFail en' s') -> evc rule es en (set_warns (s_warns s) s') r ->
      evc rule (e :: es) en s r
  | evc_panic rule e es en s m x s' :
      ev rule e [] s (OPanic m x s') -> evc rule (e :: es) en s (OPanic m x s')
  (* iterations *)
  with evt : string -> expr -> list val -> env -> st -> out -> Prop :=
  | evt_stop rule e acc en s en' s' :
      ev rule e [] s (OFail en' s') -> evt rule e acc en s (OOk (VList (rev acc)) en s')
  | evt_more rule e acc en s v en' s' r :
      ev rule e [] s (OOk v en' s') -> evt rule e (v :: acc) en s' r -> evt rule e acc en s r
  | evt_panic rule e acc en s m x s' :
      ev rule e [] s (OPanic m x s') -> evt rule e acc en s (OPanic m x s').

  Scheme ev_mind := Minimality for ev Sort Prop
    with evs_mind := Minimality for evs Sort Prop
    with evc_mind := Minimality for evc Sort Prop
    with evt_mind := Minimality for evt Sort Prop.
  Combined Scheme ev_mutind from ev_mind, evs_mind, evc_mind, evt_mind.

  (** ** Equivalence with [eval] *)

  Lemma step_prim f k rule e en s r :
    over_limit o (tick s) = false -> prim_out rule e en (tick s) = Some r ->
    step o g f k rule e en s = r.
  Proof.
    intros H E. unfold step. rewrite H.
    destruct e; cbn [prim_out] in E; try discriminate; try (now inversion E).
    destruct (find_rule name g); [discriminate|now inversion E].
  Qed.

  (** [step] on each form of expression *)
  Lemma step_act f k rule a e en s : over_limit o (tick s) = false ->
    step o g f k rule (EAct a e) en s = act_out rule a (tick s) (f rule e en (tick s)).
  Proof. intros L. unfold step. rewrite L. destruct (f rule e en (tick s)); reflexivity. Qed.
  Lemma step_lab f k rule l e en s : over_limit o (tick s) = false ->
    step o g f k rule (ELab l e) en s = lab_out l en (f rule e [] (tick s)).
  Proof. intros L. unfold step. rewrite L. destruct (f rule e [] (tick s)); reflexivity. Qed.
  Lemma step_not f k rule e en s : over_limit o (tick s) = false ->
    step o g f k rule (ENot e) en s =
    not_out en (tick s) (f rule e [] (set_mfinv (negb (s_mfinv (tick s))) (tick s))).
  Proof. intros L. unfold step. rewrite L. destruct (f _ _ _ _); reflexivity. Qed.
  Lemma step_opt f k rule e en s : over_limit o (tick s) = false ->
    step o g f k rule (EOpt e) en s = opt_out en (f rule e [] (tick s)).
  Proof. intros L. unfold step. rewrite L. destruct (f rule e [] (tick s)); reflexivity. Qed.
  Lemma step_ref f k rule name e en s : over_limit o (tick s) = false -> find_rule name g = Some e ->
    step o g f k rule (ERef name) en s = ref_out en (f name e [] (tick s)).
  Proof. intros L F. unfold step. rewrite L, F. destruct (f name e [] (tick s)); reflexivity. Qed.
  Lemma step_plus f k rule e en s : over_limit o (tick s) = false ->
    step o g f k rule (EPlus e) en s = plus_out en (star_loop (f rule e []) k [] en (tick s)).
  Proof.
    intros L. unfold step. rewrite L. destruct (star_loop _ _ _ _ _) as [[]| | |]; try reflexivity.
    destruct l; reflexivity.
  Qed.

  Section Complete.
    Variable f : string -> expr -> env -> st -> out.
    Hypothesis Hf : forall rule e en s, f rule e en s <> OFuel -> ev rule e en s (f rule e en s).

    Lemma seq_loop_evs rule pt w es : forall acc en s,
      seq_loop (f rule) pt w es acc en s <> OFuel ->
      evs rule pt w es acc en s (seq_loop (f rule) pt w es acc en s).
    Proof.
      induction es as [|e es IH]; intros acc en s H; cbn [seq_loop] in *; [constructor|].
      specialize (Hf rule e en s). destruct (f rule e en s) as [v en' s'|en' s'|m x s'|]; try congruence.
      - eapply evs_ok; [apply Hf; discriminate|]. auto.
      - apply evs_fail. apply Hf; discriminate.
      - apply evs_panic. apply Hf; discriminate.
    Qed.
    Lemma choice_loop_evc rule es : forall en s,
      choice_loop (f rule) es en s <> OFuel -> evc rule es en s (choice_loop (f rule) es en s).
    Proof.
      induction es as [|e es IH]; intros en s H; cbn [choice_loop] in *; [constructor|].
      specialize (Hf rule e [] s). destruct (f rule e [] s) as [v en' s'|en' s'|m x s'|]; try congruence.
      - eapply evc_ok. apply Hf; discriminate.
      - eapply evc_next; [apply Hf; discriminate|]. auto.
      - apply evc_panic. apply Hf; discriminate.
    Qed.
    Lemma star_loop_evt rule e k : forall acc en s,
      star_loop (f rule e []) k acc en s <> OFuel ->
      evt rule e acc en s (star_loop (f rule e []) k acc en s).
    Proof.
      induction k as [|k IH]; intros acc en s H; cbn [star_loop] in *; [congruence|].
      specialize (Hf rule e [] s). destruct (f rule e [] s) as [v en' s'|en' s'|m x s'|]; try congruence.
      - eapply evt_more; [apply Hf; discriminate|]. auto.
      - eapply evt_stop. apply Hf; discriminate.
      - apply evt_panic. apply Hf; discriminate.
    Qed.

    Lemma step_ev k rule e en s :
      step o g f k rule e en s <> OFuel -> ev rule e en s (step o g f k rule e en s).
    Proof.
      intros H. destruct (over_limit o (tick s)) eqn:L.
      { unfold step. rewrite L. now apply ev_limit. }
      destruct (prim_out rule e en (tick s)) as [r|] eqn:P.
      { rewrite (step_prim f k rule e en s r L P). now apply ev_prim. }
      destruct e; try discriminate P.
      - rewrite step_act in * by exact L. apply ev_act; [exact L|]. apply Hf.
        intros E. rewrite E in H. now apply H.
      - unfold step in *. rewrite L in *. apply ev_choice; [exact L|]. now apply choice_loop_evc.
      - unfold step in *. rewrite L in *. apply ev_seq; [exact L|]. now apply seq_loop_evs.
      - rewrite step_lab in * by exact L. apply ev_lab; [exact L|]. apply Hf.
        intros E. rewrite E in H. now apply H.
      - rewrite step_not in * by exact L. apply ev_not; [exact L|]. apply Hf.
        intros E. rewrite E in H. now apply H.
      - rewrite step_plus in * by exact L. apply ev_plus; [exact L|]. apply star_loop_evt.
        intros E. rewrite E in H. now apply H.
      - unfold step in *. rewrite L in *. apply ev_star; [exact L|]. now apply star_loop_evt.
      - rewrite step_opt in * by exact L. apply ev_opt; [exact L|]. apply Hf.
        intros E. rewrite E in H. now apply H.
      - cbn [prim_out] in P. destruct (find_rule name g) as [e|] eqn:F; [|discriminate].
        rewrite (step_ref f k rule name e en s L F) in *. eapply ev_ref; [exact L|exact F|]. apply Hf.
        intros E. rewrite E in H. now apply H.
    Qed.
  End Complete.

  Theorem eval_ev n : forall rule e en s, eval o g n rule e en s <> OFuel -> ev rule e en s (eval o g n rule e en s).
  Proof.
    induction n as [|n IH]; intros rule e en s H; [cbn in H; congruence|].
    exact (step_ev (eval o g n) IH n rule e en s H).
  Qed.

  (** Derivations never end in [OFuel]. *)
  Lemma prim_not_fuel rule e en s r : prim_out rule e en s = Some r -> r <> OFuel.
  Proof.
    destruct e; cbn [prim_out]; try discriminate; intros H; inversion H; subst; clear H.
    - destruct p; discriminate.
    - discriminate.
    - destruct (at_eof s); discriminate.
    - destruct (negb (at_eof s) && _); discriminate.
    - generalize (s_pt s). intros pt. revert s. induction runes as [|r rs IH]; intros s; cbn; [discriminate|].
      destruct (_ =? r)%N; [apply IH|discriminate].
    - destruct (find_rule name g); [discriminate|]. inversion H1; subst. discriminate.
  Qed.
  Lemma ev_not_fuel :
    (forall rule e en s r, ev rule e en s r -> r <> OFuel) /\
    (forall rule pt w es acc en s r, evs rule pt w es acc en s r -> r <> OFuel) /\
    (forall rule es en s r, evc rule es en s r -> r <> OFuel) /\
    (forall rule e acc en s r, evt rule e acc en s r -> r <> OFuel).
  Proof.
    apply ev_mutind; intros; try discriminate; try assumption.
    - eapply prim_not_fuel; eauto.
    - destruct r; cbn; try congruence.
      destruct (run_action _ _ _ _ _ _); discriminate.
    - destruct r; cbn; congruence.
    - destruct r; cbn; congruence.
    - destruct r; cbn; congruence.
    - destruct r; cbn; congruence.
    - destruct r; cbn; try congruence. destruct v; try discriminate. destruct l; discriminate.
  Qed.

  (** Every derivation is found by [eval] with enough fuel. *)
  Definition found (rule : string) (e : expr) (en : env) (s : st) (r : out) : Prop :=
    exists n, forall m, n <= m -> eval o g m rule e en s = r.

  Lemma ev_eval_all :
    (forall rule e en s r, ev rule e en s r -> found rule e en s r) /\
    (forall rule pt w es acc en s r, evs rule pt w es acc en s r ->
       exists n, forall m, n <= m -> seq_loop (eval o g m rule) pt w es acc en s = r) /\
    (forall rule es en s r, evc rule es en s r ->
       exists n, forall m, n <= m -> choice_loop (eval o g m rule) es en s = r) /\
    (forall rule e acc en s r, evt rule e acc en s r ->
       exists n, forall m k, n <= m -> n <= k -> star_loop (eval o g m rule e []) k acc en s = r).
  Proof.
    apply ev_mutind; unfold found.
    - intros rule e en s L. exists 1. intros [|m] Hm; [lia|]. cbn [eval]. unfold step. now rewrite L.
    - intros rule e en s r L P. exists 1. intros [|m] Hm; [lia|]. cbn [eval]. now apply step_prim.
    - intros rule a e en s r L _ [n IH]. exists (S n). intros [|m] Hm; [lia|].
      cbn [eval]. unfold step. rewrite L, IH by lia. now destruct r.
    - intros rule l e en s r L _ [n IH]. exists (S n). intros [|m] Hm; [lia|].
      cbn [eval]. unfold step. rewrite L, IH by lia. now destruct r.
    - intros rule e en s r L _ [n IH]. exists (S n). intros [|m] Hm; [lia|].
      cbn [eval]. unfold step. rewrite L, IH by lia. now destruct r.
    - intros rule e en s r L _ [n IH]. exists (S n). intros [|m] Hm; [lia|].
      cbn [eval]. unfold step. rewrite L, IH by lia. now destruct r.
    - intros rule name e en s r L F _ [n IH]. exists (S n). intros [|m] Hm; [lia|].
      cbn [eval]. unfold step. rewrite L, F, IH by lia. now destruct r.
    - intros rule es en s r L _ [n IH]. exists (S n). intros [|m] Hm; [lia|].
      cbn [eval]. unfold step. rewrite L. apply IH. lia.
    - intros rule es en s r L _ [n IH]. exists (S n). intros [|m] Hm; [lia|].
      cbn [eval]. unfold step. rewrite L. apply IH. lia.
    - intros rule e en s r L _ [n IH]. exists (S n). intros [|m] Hm; [lia|].
      cbn [eval]. unfold step. rewrite L. apply IH; lia.
    - intros rule e en s r L _ [n IH]. exists (S n). intros [|m] Hm; [lia|].
      cbn [eval]. rewrite step_plus by exact L. rewrite IH by lia. reflexivity.
    - intros. exists 0. reflexivity.
    - intros rule pt w e es acc en s v en' s' r _ [n1 IH1] _ [n2 IH2]. exists (Nat.max n1 n2).
      intros m Hm. cbn [seq_loop]. rewrite IH1 by lia. apply IH2. lia.
    - intros rule pt w e es acc en s en' s' _ [n IH]. exists n.
      intros m Hm. cbn [seq_loop]. rewrite IH by lia. reflexivity.
    - intros rule pt w e es acc en s m0 x s' _ [n IH]. exists n.
      intros m Hm. cbn [seq_loop]. rewrite IH by lia. reflexivity.
    - intros. exists 0. reflexivity.
    - intros rule e es en s v en' s' _ [n IH]. exists n.
      intros m Hm. cbn [choice_loop]. rewrite IH by lia. reflexivity.
    - intros rule e es en s en' s' r _ [n1 IH1] _ [n2 IH2]. exists (Nat.max n1 n2).
      intros m Hm. cbn [choice_loop]. rewrite IH1 by lia. apply IH2. lia.
    - intros rule e es en s m0 x s' _ [n IH]. exists n.
      intros m Hm. cbn [choice_loop]. rewrite IH by lia. reflexivity.
    - intros rule e acc en s en' s' _ [n IH]. exists (S n).
      intros m [|k] Hm Hk; [lia|]. cbn [star_loop]. rewrite IH by lia. reflexivity.
    - intros rule e acc en s v en' s' r _ [n1 IH1] _ [n2 IH2]. exists (S (Nat.max n1 n2)).
      intros m [|k] Hm Hk; [lia|]. cbn [star_loop]. rewrite IH1 by lia. apply IH2; lia.
    - intros rule e acc en s m0 x s' _ [n IH]. exists (S n).
      intros m [|k] Hm Hk; [lia|]. cbn [star_loop]. rewrite IH by lia. reflexivity.
  Qed.

  Theorem ev_eval rule e en s r : ev rule e en s r -> found rule e en s r.
  Proof. apply ev_eval_all. Qed.

  Theorem ev_fun rule e en s r r' : ev rule e en s r -> ev rule e en s r' -> r = r'.
  Proof.
    intros H H'. destruct (ev_eval _ _ _ _ _ H) as [n Hn], (ev_eval _ _ _ _ _ H') as [n' Hn'].
    rewrite <- (Hn (Nat.max n n')) by lia. apply Hn'. lia.
  Qed.

  Theorem eval_run n rule e en s r : ev rule e en s r -> eval o g n rule e en s <> OFuel -> eval o g n rule e en s = r.
  Proof. intros H H'. eapply ev_fun; [now apply eval_ev|exact H]. Qed.
End Run.
