(** Facts about the runtime with counters (Stats.v): it computes what Engine.eval computes;
    the expression counter only shifts; what the counters can become. *)
From Coq Require Import List NArith Bool String Arith Lia.
From Verif Require Import Bytes Utf8 F64 Ast Peg Actions Engine Parser GrammarGen ChoiceGen QuoteFacts SimpleFacts PosFacts Run EngineFacts
  Termination RunInv Sim HistFacts ParseFacts LimitFacts Memo MemoFacts Stats.
Import ListNotations.

(** ** The counters do not influence the outcome *)
Section Same.
  Variable o : settings.
  Variable g : grammar.
  Variable nm : bytes.
  Notation Same f h := (forall rule path e en s c, fst (f rule path e en s c) = h rule e en s).
  Lemma cseq_same (f : nat -> expr -> env -> st -> counters -> out * counters) (h : expr -> env -> st -> out) pt w :
    (forall i e en s c, fst (f i e en s c) = h e en s) ->
    forall es i acc en s c, fst (cseq_loop f pt w i es acc en s c) = seq_loop h pt w es acc en s.
  Proof.
    intros H. induction es as [|e es IH]; intros i acc en s c; [reflexivity|]. cbn [cseq_loop seq_loop].
    specialize (H i e en s c). destruct (f i e en s c) as [r c']. cbn [fst] in H. subst r. destruct (h e en s); [apply IH|reflexivity..].
  Qed.
  Lemma cchoice_same ident (f : nat -> expr -> env -> st -> counters -> out * counters) (h : expr -> env -> st -> out) :
    (forall i e en s c, fst (f i e en s c) = h e en s) ->
    forall es i en s c, fst (cchoice_loop nm ident f i es en s c) = choice_loop h es en s.
  Proof.
    intros H. induction es as [|e es IH]; intros i en s c; [reflexivity|]. cbn [cchoice_loop choice_loop].
    specialize (H i e [] s c). destruct (f i e [] s c) as [r c']. cbn [fst] in H. subst r. destruct (h e [] s); [reflexivity|apply IH|reflexivity..].
  Qed.
  Lemma cstar_same (f : st -> counters -> out * counters) (h : st -> out) :
    (forall s c, fst (f s c) = h s) -> forall k acc en s c, fst (cstar_loop f k acc en s c) = star_loop h k acc en s.
  Proof.
    intros H. induction k as [|k IH]; intros acc en s c; [reflexivity|]. cbn [cstar_loop star_loop].
    specialize (H s c). destruct (f s c) as [r c']. cbn [fst] in H. subst r. destruct (h s); [apply IH|reflexivity..].
  Qed.
  Lemma cstep_same f h k : Same f h -> forall rule path e en s c, fst (cstep o g nm f k rule path e en s c) = step o g h k rule e en s.
  Proof.
    intros H rule path e en s c. unfold cstep.
    destruct e; try reflexivity; unfold step; cbv zeta; destruct (over_limit o (tick s)); try reflexivity.
    - specialize (H rule (0 :: path) e en (tick s) c). destruct (f rule (0 :: path) e en (tick s) c) as [r c']. cbn [fst] in H. rewrite <- H.
      destruct r; try reflexivity. now destruct (run_action _ _ _ _ _ _).
    - apply cchoice_same. intros. apply H.
    - apply cseq_same. intros. apply H.
    - specialize (H rule (0 :: path) e [] (tick s) c). destruct (f rule (0 :: path) e [] (tick s) c) as [r c']. cbn [fst] in H. rewrite <- H. now destruct r.
    - match goal with |- context [f rule (0 :: path) e [] ?s1 c] => specialize (H rule (0 :: path) e [] s1 c); destruct (f rule (0 :: path) e [] s1 c) as [r c'] end.
      cbn [fst] in H. rewrite <- H. now destruct r.
    - match goal with |- context [cstar_loop ?F k [] en (tick s) c] => pose proof (cstar_same F (h rule e []) (fun s0 c0 => H rule (0 :: path) e [] s0 c0) k [] en (tick s) c) as E; destruct (cstar_loop F k [] en (tick s) c) as [r c'] end.
      cbn [fst] in E. rewrite <- E. destruct r as [v ? ?| | |]; try reflexivity. destruct v; try reflexivity. now destruct l.
    - apply cstar_same. intros. apply H.
    - specialize (H rule (0 :: path) e [] (tick s) c). destruct (f rule (0 :: path) e [] (tick s) c) as [r c']. cbn [fst] in H. rewrite <- H. now destruct r.
    - destruct (find_rule name g) as [e|]; [|reflexivity].
      specialize (H name [] e [] (tick s) c). destruct (f name [] e [] (tick s) c) as [r c']. cbn [fst] in H. rewrite <- H. now destruct r.
  Qed.
  Theorem ceval_same n : Same (ceval o g nm n) (eval o g n).
  Proof. induction n as [|n IH]; [reflexivity|]. intros. cbn [ceval eval]. now apply cstep_same. Qed.
End Same.

(** ** What can happen to the counters *)
(** the parts of an expression *)
Definition child (e : expr) (i : nat) : option expr :=
  match e with
  | EAct _ e | ELab _ e | ENot e | EPlus e | EStar e | EOpt e => match i with 0 => Some e | _ => None end
  | EChoice l | ESeq l => nth_error l i
  | _ => None
  end.
Section Inv.
  Variable o : settings.
  Variable g : grammar.
  Variable nm : bytes.
  (** the nodes that are evaluated *)
  Variable node_ok : string -> list nat -> expr -> Prop.
  Hypothesis Hchild : forall rule path e i e', node_ok rule path e -> child e i = Some e' -> node_ok rule (i :: path) e'.
  Hypothesis Href : forall rule path name e, node_ok rule path (ERef name) -> find_rule name g = Some e -> node_ok name [] e.
  (** a relation between the counters and ExprCnt before and after *)
  Variable I : counters -> N -> counters -> N -> Prop.
  Hypothesis Irefl : forall c n, I c n c n.
  Hypothesis Itrans : forall c n c' n' c'' n'', I c n c' n' -> I c' n' c'' n'' -> I c n c'' n''.
  Hypothesis Itick : forall c n, I c n c (n + 1)%N.
  Hypothesis Ichoice : forall rule path es c n c' n' a, node_ok rule path (EChoice es) -> I c (n + 1)%N c' n' ->
    a = nm \/ (exists i, i < List.length es /\ a = itoa (i + 1)) -> I c n (incr (choice_ident rule path) a c') n'.

  Definition J (c : counters) (n : N) (x : out * counters) : Prop := fst x = OFuel \/ I c n (snd x) (out_cnt (fst x)).
  Lemma cseq_inv (f : nat -> expr -> env -> st -> counters -> out * counters) pt w n0 c0 :
    forall es i, (forall j e en s c, nth_error es j = Some e -> J c (s_cnt s) (f (i + j) e en s c)) ->
    forall acc en s c, I c0 n0 c (s_cnt s) -> J c0 n0 (cseq_loop f pt w i es acc en s c).
  Proof.
    induction es as [|e es IH]; intros i H acc en s c B; [right; exact B|]. cbn [cseq_loop].
    pose proof (H 0 e en s c eq_refl) as K. rewrite Nat.add_0_r in K. destruct (f i e en s c) as [r c']. destruct K as [K|K]; cbn [fst snd] in K; [subst r; left; reflexivity|].
    destruct r as [v en' s'|en' s'|m x s'|]; cbn [out_cnt] in K.
    - apply IH; [|now apply Itrans with c (s_cnt s)]. intros j e1 en1 s1 c1 N. specialize (H (S j) e1 en1 s1 c1 N). now replace (S i + j) with (i + S j) by lia.
    - right. cbn [snd fst out_cnt]. rewrite restore_cnt. cbn. now apply Itrans with c (s_cnt s).
    - right. now apply Itrans with c (s_cnt s).
    - left. reflexivity.
  Qed.
  Lemma cchoice_inv ident (f : nat -> expr -> env -> st -> counters -> out * counters) n0 c0 len
    (Hc : forall a c' n', I c0 (n0 + 1)%N c' n' -> a = nm \/ (exists i, i < len /\ a = itoa (i + 1)) -> I c0 n0 (incr ident a c') n') :
    forall es i, i + List.length es = len -> (forall j e en s c, nth_error es j = Some e -> J c (s_cnt s) (f (i + j) e en s c)) ->
    forall en s c, I c0 (n0 + 1)%N c (s_cnt s) -> J c0 n0 (cchoice_loop nm ident f i es en s c).
  Proof.
    induction es as [|e es IH]; intros i L H en s c B; [right; cbn; now apply Hc; [|left]|]. cbn [cchoice_loop].
    pose proof (H 0 e [] s c eq_refl) as K. rewrite Nat.add_0_r in K. destruct (f i e [] s c) as [r c']. destruct K as [K|K]; cbn [fst snd] in K; [subst r; left; reflexivity|].
    destruct r as [v en' s'|en' s'|m x s'|]; cbn [out_cnt] in K.
    - right. cbn [fst snd out_cnt]. apply Hc; [now apply Itrans with c (s_cnt s)|]. right. exists i. split; [cbn in L; lia|reflexivity].
    - apply IH; [cbn in L; lia| |cbn; now apply Itrans with c (s_cnt s)]. intros j e1 en1 s1 c1 N. specialize (H (S j) e1 en1 s1 c1 N). now replace (S i + j) with (i + S j) by lia.
    - right. cbn [fst snd out_cnt]. apply Itrans with c0 (n0 + 1)%N; [apply Itick|]. now apply Itrans with c (s_cnt s).
    - left. reflexivity.
  Qed.
  Lemma cstar_inv (f : st -> counters -> out * counters) n0 c0 : (forall s c, J c (s_cnt s) (f s c)) ->
    forall k acc en s c, I c0 n0 c (s_cnt s) -> J c0 n0 (cstar_loop f k acc en s c).
  Proof.
    intros H. induction k as [|k IH]; intros acc en s c B; [left; reflexivity|]. cbn [cstar_loop].
    pose proof (H s c) as K. destruct (f s c) as [r c']. destruct K as [K|K]; cbn [fst snd] in K; [subst r; left; reflexivity|].
    destruct r as [v en' s'|en' s'|m x s'|]; cbn [out_cnt] in K.
    - apply IH. now apply Itrans with c (s_cnt s).
    - right. now apply Itrans with c (s_cnt s).
    - right. now apply Itrans with c (s_cnt s).
    - left. reflexivity.
  Qed.
  Lemma J_out c n r r' c' : (r = OFuel -> r' = OFuel) -> (r <> OFuel -> out_cnt r' = out_cnt r) -> J c n (r, c') -> J c n (r', c').
  Proof.
    intros H1 H2 [K|K]; cbn [fst snd] in K; [left; cbn; auto|]. destruct r; [right; cbn [fst snd]; rewrite H2 by discriminate; exact K..|left; auto].
  Qed.
  Lemma cstep_inv f k : (forall rule path e en s c, node_ok rule path e -> J c (s_cnt s) (f rule path e en s c)) ->
    forall rule path e en s c, node_ok rule path e -> J c (s_cnt s) (cstep o g nm f k rule path e en s c).
  Proof.
    intros H rule path e en s c N.
    assert (T : I c (s_cnt s) c (s_cnt (tick s))) by (cbn; apply Itick).
    assert (S1 : forall i e' en' s' c', child e i = Some e' -> s_cnt s' = s_cnt (tick s) -> J c' (s_cnt (tick s)) (f rule (i :: path) e' en' s' c')).
    { intros i e' en' s' c' E Q. rewrite <- Q. apply H. now apply Hchild with e. }
    assert (Up : forall x, J c (s_cnt (tick s)) x -> J c (s_cnt s) x).
    { intros x [K|K]; [now left|right; now apply Itrans with c (s_cnt (tick s))]. }
    assert (Pr : forall r, prim_out o g rule e en (tick s) = Some r -> J c (s_cnt s) (r, c)).
    { intros r P. right. cbn [fst snd]. rewrite (prim_cnt _ _ _ _ _ _ _ P). exact T. }
    unfold cstep. destruct (over_limit o (tick s)) eqn:L; [right; exact T|].
    assert (P1 : forall r, prim_out o g rule e en (tick s) = Some r -> step o g (fun _ _ _ _ => OFuel) k rule e en s = r).
    { intros r. unfold step, prim_out. cbv zeta. rewrite L. destruct e; intros P; try discriminate; try congruence. destruct (find_rule name g); [discriminate|congruence]. }
    destruct e; try (match goal with |- J _ _ (step _ _ _ _ _ ?e _ _, _) => destruct (prim_out o g rule e en (tick s)) as [r|] eqn:P; [rewrite (P1 r eq_refl); apply Pr; reflexivity|discriminate P] end).
    - specialize (S1 0 e en (tick s) c eq_refl eq_refl). apply Up. destruct (f rule (0 :: path) e en (tick s) c) as [r c'].
      destruct r; try exact S1. destruct (run_action _ _ _ _ _ _); (eapply J_out; [| |exact S1]; [discriminate|reflexivity]).
    - apply cchoice_inv with (len := List.length l); [|reflexivity| |].
      + intros a c' n' B D. now apply Ichoice with l.
      + intros j e en' s' c' E. cbn [Nat.add]. apply H. now apply Hchild with (EChoice l).
      + apply Irefl.
    - apply Up. apply cseq_inv; [|apply Irefl]. intros j e en' s' c' E. cbn [Nat.add]. apply H. now apply Hchild with (ESeq l).
    - specialize (S1 0 e [] (tick s) c eq_refl eq_refl). apply Up. destruct (f rule (0 :: path) e [] (tick s) c) as [r c'].
      destruct r; try exact S1; (eapply J_out; [| |exact S1]; [discriminate|reflexivity]).
    - specialize (S1 0 e [] (set_mfinv (negb (s_mfinv (tick s))) (tick s)) c eq_refl eq_refl). apply Up. destruct (f rule (0 :: path) e [] _ c) as [r c'].
      destruct r; try exact S1; (eapply J_out; [| |exact S1]; [discriminate|intros _; cbn [out_cnt]; rewrite restore_cnt; reflexivity]).
    - apply Up. assert (K : J c (s_cnt (tick s)) (cstar_loop (f rule (0 :: path) e []) k [] en (tick s) c)).
      { apply cstar_inv; [|apply Irefl]. intros s' c'. apply H. now apply Hchild with (EPlus e). }
      destruct (cstar_loop _ _ _ _ _ _) as [r c']. destruct r as [v ? ?| | |]; try exact K. destruct v; try exact K. destruct l; try exact K.
      eapply J_out; [| |exact K]; [discriminate|reflexivity].
    - apply Up. apply cstar_inv; [|apply Irefl]. intros s' c'. apply H. now apply Hchild with (EStar e).
    - specialize (S1 0 e [] (tick s) c eq_refl eq_refl). apply Up. destruct (f rule (0 :: path) e [] (tick s) c) as [r c'].
      destruct r; try exact S1; (eapply J_out; [| |exact S1]; [discriminate|reflexivity]).
    - destruct (find_rule name g) as [e|] eqn:F.
      + assert (K : J c (s_cnt (tick s)) (f name [] e [] (tick s) c)) by (apply H; now apply Href with rule path).
        apply Up. destruct (f name [] e [] (tick s) c) as [r c']. destruct r; try exact K; (eapply J_out; [| |exact K]; [discriminate|reflexivity]).
      + right. exact T.
  Qed.
  Theorem ceval_inv n : forall rule path e en s c, node_ok rule path e -> J c (s_cnt s) (ceval o g nm n rule path e en s c).
  Proof. induction n as [|n IH]; [left; reflexivity|]. intros. cbn [ceval]. now apply cstep_inv. Qed.
End Inv.

(** ** A run that starts with another count, and with an empty list of warnings instead of none *)
Section Up.
  Variable d : N.
  Definition wlist (w : option (list position)) : option (list position) := Some (match w with Some l => l | None => [] end).
  Definition up (s : st) : st := set_warns (wlist (s_warns s)) (set_cnt (s_cnt s + d)%N s).
  Definition up_out (r : out) : out :=
    match r with OOk v en s => OOk v en (up s) | OFail en s => OFail en (up s) | OPanic m x s => OPanic m x (up s) | OFuel => OFuel end.
  Definition up_settings (o : settings) : settings :=
    Settings (o_ignore o) (o_warn o) (o_invalid o) (match o_max o with Some m => Some (m + d)%N | None => None end).
  Variable o : settings.
  Notation o' := (up_settings o).
  Variable g : grammar.
  Variable nm : bytes.
  Variable R : counters -> counters -> Prop.
  Hypothesis Rincr : forall k a c c', R c c' -> R (incr k a c) (incr k a c').

  Lemma up_tick s : tick (up s) = up (tick s).
  Proof. unfold up, tick, set_cnt, set_warns. cbn. f_equal. lia. Qed.
  Lemma up_over s : over_limit o' (up s) = over_limit o s.
  Proof.
    unfold over_limit. cbn. destruct (o_max o) as [m|]; [|reflexivity]. destruct (N.ltb_spec m (s_cnt s)), (N.ltb_spec (m + d) (s_cnt s + d)); lia || reflexivity.
  Qed.
  Lemma up_restore p s : restore p (up s) = up (restore p s).
  Proof. unfold restore. change (s_pt (up s)) with (s_pt s). destruct (_ =? _); reflexivity. Qed.
  Lemma up_fail_at x p w s : fail_at x p w (up s) = up (fail_at x p w s).
  Proof. unfold fail_at. change (s_mfinv (up s)) with (s_mfinv s). change (s_mfpos (up s)) with (s_mfpos s). change (s_mfexp (up s)) with (s_mfexp s). destruct (Bool.eqb _ _); [|reflexivity]. destruct (p_off p <? _); [reflexivity|]. destruct (_ <? p_off p); reflexivity. Qed.
  Lemma up_read rule s : read o' rule (up s) = up (read o rule s).
  Proof. unfold read, check_rune. cbn. destruct (_ && _); reflexivity. Qed.
  Lemma up_push m s : push_error m (up s) = up (push_error m s).
  Proof.
    unfold push_error. change (cur_off (up s)) with (cur_off s). change (s_ff (up s)) with (s_ff s). destruct (s_ff s); [reflexivity|]. destruct (f_off f <? _); [reflexivity|].
    destruct (_ =? f_off f); [|reflexivity]. destruct (existsb _ _); reflexivity.
  Qed.
  Lemma up_state c s : run_state o' c (up s) = up (run_state o c s).
  Proof. unfold run_state. destruct c; cbn; [destruct (s_warns s) eqn:E; unfold up; cbn; rewrite ?E; reflexivity|]. destruct (_ && _); reflexivity. Qed.
  Lemma up_lit rule want p rs en : forall s, lit_loop o' rule want p rs en (up s) = up_out (lit_loop o rule want p rs en s).
  Proof.
    induction rs as [|r rs IH]; intros s; cbn [lit_loop].
    - rewrite up_fail_at. reflexivity.
    - change (s_pt (up s)) with (s_pt s). destruct (_ =? _)%N; [rewrite up_read; apply IH|]. cbn. now rewrite up_fail_at, up_restore.
  Qed.
  Lemma up_prim rule e en s r : prim_out o g rule e en s = Some r -> prim_out o' g rule e en (up s) = Some (up_out r).
  Proof.
    assert (Q : forall x y : out, x = up_out y -> Some y = Some r -> Some x = Some (up_out r)) by (intros x y -> E; now injection E as ->).
    destruct e; cbn [prim_out]; try discriminate.
    all: first [apply Q | destruct (find_rule name g); [discriminate|apply Q; reflexivity]].
    all: change (s_pt (up s)) with (s_pt s); change (at_eof (up s)) with (at_eof s); cbv zeta.
    all: first [apply up_lit | rewrite up_state; reflexivity | rewrite up_read, !up_fail_at; destruct (at_eof s); [reflexivity|]; cbn [negb andb]; try destruct (class_match _ _ _ _); reflexivity | idtac].
    destruct p; cbn [run_predicate up_out]; [reflexivity| |reflexivity]. now rewrite up_push.
  Qed.
  Lemma up_action a w en p t : run_action (o_ignore o') (wlist w) a en p t = run_action (o_ignore o) w a en p t.
  Proof. destruct a; try reflexivity. cbn. now destruct w. Qed.

  Definition T (x x' : out * counters) : Prop := fst x' = up_out (fst x) /\ R (snd x) (snd x').
  Lemma cseq_up (f f' : nat -> expr -> env -> st -> counters -> out * counters) pt w :
    (forall i e en s c c', R c c' -> T (f i e en s c) (f' i e en (up s) c')) ->
    forall es i acc en s c c', R c c' -> T (cseq_loop f pt w i es acc en s c) (cseq_loop f' pt (wlist w) i es acc en (up s) c').
  Proof.
    intros H. induction es as [|e es IH]; intros i acc en s c c' B; [now split|]. cbn [cseq_loop].
    pose proof (H i e en s c c' B) as [K1 K2]. destruct (f i e en s c) as [r c1], (f' i e en (up s) c') as [r' c1']. cbn [fst snd] in K1, K2. subst r'.
    destruct r as [v en' s'|en' s'|m x s'|]; cbn [up_out]; [now apply IH|split; [cbn [fst up_out]; rewrite <- up_restore|exact K2]; reflexivity|now split..].
  Qed.
  Lemma cchoice_up ident (f f' : nat -> expr -> env -> st -> counters -> out * counters) :
    (forall i e en s c c', R c c' -> T (f i e en s c) (f' i e en (up s) c')) ->
    forall es i en s c c', R c c' -> T (cchoice_loop nm ident f i es en s c) (cchoice_loop nm ident f' i es en (up s) c').
  Proof.
    intros H. induction es as [|e es IH]; intros i en s c c' B; [split; [reflexivity|now apply Rincr]|]. cbn [cchoice_loop].
    pose proof (H i e [] s c c' B) as [K1 K2]. destruct (f i e [] s c) as [r c1], (f' i e [] (up s) c') as [r' c1']. cbn [fst snd] in K1, K2. subst r'.
    destruct r as [v en' s'|en' s'|m x s'|]; cbn [up_out]; [split; [reflexivity|now apply Rincr]| |now split..].
    change (set_warns (s_warns (up s)) (up s')) with (up (set_warns (s_warns s) s')). now apply IH.
  Qed.
  Lemma cstar_up (f f' : st -> counters -> out * counters) :
    (forall s c c', R c c' -> T (f s c) (f' (up s) c')) ->
    forall k acc en s c c', R c c' -> T (cstar_loop f k acc en s c) (cstar_loop f' k acc en (up s) c').
  Proof.
    intros H. induction k as [|k IH]; intros acc en s c c' B; [now split|]. cbn [cstar_loop].
    pose proof (H s c c' B) as [K1 K2]. destruct (f s c) as [r c1], (f' (up s) c') as [r' c1']. cbn [fst snd] in K1, K2. subst r'.
    destruct r as [v en' s'|en' s'|m x s'|]; cbn [up_out]; [now apply IH|now split..].
  Qed.
  Lemma cstep_up f f' k : (forall rule path e en s c c', R c c' -> T (f rule path e en s c) (f' rule path e en (up s) c')) ->
    forall rule path e en s c c', R c c' -> T (cstep o g nm f k rule path e en s c) (cstep o' g nm f' k rule path e en (up s) c').
  Proof.
    intros H rule path e en s c c' B. unfold cstep. rewrite up_tick, up_over. destruct (over_limit o (tick s)) eqn:L; [now split|].
    assert (P1 : forall r, prim_out o g rule e en (tick s) = Some r ->
      T (step o g (fun _ _ _ _ => OFuel) k rule e en s, c) (step o' g (fun _ _ _ _ => OFuel) k rule e en (up s) , c')).
    { intros r P. pose proof (up_prim _ _ _ _ _ P) as P'. unfold step. rewrite up_tick, up_over, L. unfold prim_out in P, P'.
      destruct e; try discriminate P; try (split; [cbn [fst]; congruence|exact B]).
      destruct (find_rule name g); [discriminate|]. split; [cbn [fst]; congruence|exact B]. }
    destruct e; try (match type of P1 with forall r, ?p = Some r -> _ => destruct p as [r0|] eqn:P; [exact (P1 r0 eq_refl)|discriminate P] end); clear P1.
    - specialize (H rule (0 :: path) e en (tick s) c c' B). destruct H as [K1 K2]. destruct (f rule _ e en (tick s) c) as [r c1], (f' rule _ e en (up (tick s)) c') as [r' c1'].
      cbn [fst snd] in K1, K2. subst r'. destruct r as [v en' s'|en' s'|m x s'|]; cbn [up_out]; [|now split..].
      match goal with |- T (match run_action _ ?w ?a ?e1 ?p ?t with _ => _ end) (match run_action _ ?w' ?a' ?e2 ?p' ?t' with _ => _ end) =>
        change (run_action (o_ignore o') w' a' e2 p' t') with (run_action (o_ignore o') (wlist w) a e1 p t) end.
      rewrite up_action. destruct (run_action _ _ _ _ _ _); now split.
    - apply cchoice_up; [|exact B]. intros. now apply H.
    - change (s_pt (up (tick s))) with (s_pt (tick s)). change (s_warns (up (tick s))) with (wlist (s_warns (tick s))). apply cseq_up; [|exact B]. intros. now apply H.
    - specialize (H rule (0 :: path) e [] (tick s) c c' B). destruct H as [K1 K2]. destruct (f rule _ e [] (tick s) c) as [r c1], (f' rule _ e [] (up (tick s)) c') as [r' c1'].
      cbn [fst snd] in K1, K2. subst r'. destruct r as [v en' s'|en' s'|m x s'|]; now split.
    - specialize (H rule (0 :: path) e [] (set_mfinv (negb (s_mfinv (tick s))) (tick s)) c c' B). destruct H as [K1 K2].
      change (set_mfinv (negb (s_mfinv (up (tick s)))) (up (tick s))) with (up (set_mfinv (negb (s_mfinv (tick s))) (tick s))).
      destruct (f rule _ e [] _ c) as [r c1], (f' rule _ e [] _ c') as [r' c1'].
      cbn [fst snd] in K1, K2. subst r'. destruct r as [v en' s'|en' s'|m x s'|]; cbn [up_out]; [..|now split|now split]; (split; [cbn [fst up_out]; rewrite <- up_restore; reflexivity|exact K2]).
    - assert (K : T (cstar_loop (f rule (0 :: path) e []) k [] en (tick s) c) (cstar_loop (f' rule (0 :: path) e []) k [] en (up (tick s)) c')).
      { apply cstar_up; [|exact B]. intros. now apply H. }
      destruct K as [K1 K2]. destruct (cstar_loop _ _ _ _ (tick s) _) as [r c1], (cstar_loop _ _ _ _ (up (tick s)) _) as [r' c1']. cbn [fst snd] in K1, K2. subst r'.
      destruct r as [v en' s'|en' s'|m x s'|]; cbn [up_out]; [|now split..]. destruct v; try now split. destruct l; now split.
    - apply cstar_up; [|exact B]. intros. now apply H.
    - specialize (H rule (0 :: path) e [] (tick s) c c' B). destruct H as [K1 K2]. destruct (f rule _ e [] (tick s) c) as [r c1], (f' rule _ e [] (up (tick s)) c') as [r' c1'].
      cbn [fst snd] in K1, K2. subst r'. destruct r as [v en' s'|en' s'|m x s'|]; now split.
    - destruct (find_rule name g) as [e|] eqn:F; [|now split].
      specialize (H name [] e [] (tick s) c c' B). destruct H as [K1 K2]. destruct (f name _ e [] (tick s) c) as [r c1], (f' name _ e [] (up (tick s)) c') as [r' c1'].
      cbn [fst snd] in K1, K2. subst r'. destruct r as [v en' s'|en' s'|m x s'|]; now split.
  Qed.
  Theorem ceval_up n : forall rule path e en s c c', R c c' -> T (ceval o g nm n rule path e en s c) (ceval o' g nm n rule path e en (up s) c').
  Proof. induction n as [|n IH]; [now split|]. intros. cbn [ceval]. now apply cstep_up. Qed.
End Up.

(** ** Options *)
(** what an option means for the parse, in terms of the options of Parser.v *)
Definition plain (x : xopt) : list popt :=
  match x with
  | XOption x => [x]
  | XGlobalStore key v =>
      if String.eqb key ignore_key then [OptIgnoreComments (is_true v)]
      else if String.eqb key warning_key then [OptExceptionalCommentsWarning (is_true v)] else []
  | _ => []
  end.
(** the Stats in force, and the label of choices that do not match *)
Definition the_stats (xs : list xopt) : stats :=
  fold_left (fun s x => match x with XStatistics (Some s') _ => s' | _ => s end) xs new_stats.
Definition the_label (xs : list xopt) : bytes :=
  fold_left (fun s x => match x with XStatistics _ nm => nm | _ => s end) xs [].
Definition cfg_of (k : xcfg) : pcfg :=
  PCfg (x_max k) (x_entry k) (x_invalid k) (x_recover k) (is_true (x_global k ignore_key)) (is_true (x_global k warning_key)).
Lemma apply_plain x k k' y : apply_xopt x k = Some (k', y) ->
  cfg_of k' = fold_left (fun c o => fst (apply_opt o c)) (plain x) (cfg_of k) /\
  x_stats k' = (match x with XStatistics (Some s') _ => s' | _ => x_stats k end) /\ x_no_match k' = (match x with XStatistics _ nm => nm | _ => x_no_match k end).
Proof.
  destruct x as [p|[s|] nm|v|key v|key v]; cbn [apply_xopt]; [..|discriminate| | |]; intros E.
  - destruct p; injection E as <- _; split; reflexivity || (split; reflexivity).
  - injection E as <- _. split; reflexivity || (split; reflexivity).
  - injection E as <- _. split; reflexivity || (split; reflexivity).
  - injection E as <- _. split; [|split; reflexivity]. unfold cfg_of, plain. cbn [x_global x_max x_entry x_invalid x_recover]. unfold put.
    rewrite (String.eqb_sym ignore_key key), (String.eqb_sym warning_key key).
    destruct (String.eqb_spec key ignore_key) as [->|N1]; [reflexivity|]. destruct (String.eqb_spec key warning_key); reflexivity.
  - injection E as <- _. split; reflexivity || (split; reflexivity).
Qed.
Lemma set_plain xs : forall k k', set_options xs k = Some k' ->
  cfg_of k' = fold_left (fun c o => fst (apply_opt o c)) (flat_map plain xs) (cfg_of k) /\
  x_stats k' = fold_left (fun s x => match x with XStatistics (Some s') _ => s' | _ => s end) xs (x_stats k) /\
  x_no_match k' = fold_left (fun s x => match x with XStatistics _ nm => nm | _ => s end) xs (x_no_match k).
Proof.
  induction xs as [|x xs IH]; intros k k'; cbn [set_options].
  - intros E. injection E as <-. repeat split.
  - destruct (apply_xopt x k) as [[k1 y]|] eqn:A; [|discriminate]. apply apply_plain in A as (A1 & A2 & A3). intros E. apply IH in E as (E1 & E2 & E3).
    cbn [flat_map fold_left]. rewrite fold_left_app, <- A1, <- A2, <- A3. auto.
Qed.
Lemma set_some xs : forall k, (forall nm, ~ In (XStatistics None nm) xs) -> exists k', set_options xs k = Some k'.
Proof.
  induction xs as [|x xs IH]; intros k H; cbn [set_options]; [eauto|].
  destruct (apply_xopt x k) as [[k1 y]|] eqn:A; [apply IH; intros nm I; apply (H nm); now right|].
  destruct x as [p|[s|] nm|v|key v|key v]; try discriminate A; [now destruct p|]. destruct (H nm). now left.
Qed.
Lemma set_none xs nm : In (XStatistics None nm) xs -> forall k, set_options xs k = None.
Proof.
  induction xs as [|x xs IH]; intros H k; [destruct H|]. cbn [set_options]. destruct H as [->|H]; [reflexivity|].
  destruct (apply_xopt x k) as [[k1 y]|]; [now apply IH|reflexivity].
Qed.

(** ** The whole parse *)
(** the run behind xparse, and the fresh unlimited run of Parser.v *)
Definition run_of (k : xcfg) (ff : list failure) (data : bytes) (e : expr) : out * counters :=
  ceval (xsettings k) gen_grammar (x_no_match k) (parse_fuel (List.length data)) (x_entry k) [] e [] (xinit_st k ff data) (st_alt (x_stats k)).
Lemma settings_cfg k : xsettings k = settings_of (cfg_of k).
Proof. reflexivity. Qed.
Lemma xparse_run k ff data : xparse_with (parse_fuel (List.length data)) k ff data =
  match find_rule (x_entry k) gen_grammar with
  | None => (Returned VNil [PError (Pos 1 0 0) None (MText (b "invalid entrypoint"))], ff, x_stats k)
  | Some e => let x := run_of k ff data e in
      (finish (cfg_of k) (fst x) ff, Stats (out_count (st_cnt (x_stats k)) (fst x)) (snd x))
  end.
Proof.
  unfold xparse_with, run_of. destruct (find_rule (x_entry k) gen_grammar) as [e|]; [|reflexivity].
  destruct (ceval _ _ _ _ _ _ _ _ _ _) as [r c]. cbn [fst snd]. now destruct r.
Qed.
Definition same_result (r r' : out) : Prop :=
  match r, r' with
  | OOk v _ s, OOk v' _ s' => v = v' /\ s_errs s = s_errs s' /\ s_ff s = s_ff s'
  | OFail _ s, OFail _ s' => s_errs s = s_errs s' /\ s_ff s = s_ff s' /\ s_mfpos s = s_mfpos s' /\ s_mfexp s = s_mfexp s'
  | OPanic m x s, OPanic m' x' s' => m = m' /\ x = x' /\ s_errs s = s_errs s' /\ s_ff s = s_ff s' /\ s_pt s = s_pt s'
  | OFuel, OFuel => True
  | _, _ => False
  end.
Lemma same_finish k r r' ff : same_result r r' -> finish k r ff = finish k r' ff.
Proof.
  destruct r, r'; cbn; try tauto.
  - intros (-> & -> & ->). reflexivity.
  - intros (-> & -> & -> & ->). reflexivity.
  - intros (-> & -> & -> & -> & ->). reflexivity.
Qed.
Lemma up_proj d d' s s' : up d s = up d' s' ->
  s_errs s = s_errs s' /\ s_ff s = s_ff s' /\ s_mfpos s = s_mfpos s' /\ s_mfexp s = s_mfexp s' /\ s_pt s = s_pt s' /\ (s_cnt s + d = s_cnt s' + d')%N.
Proof.
  intros E. repeat split.
  - exact (f_equal s_errs E).
  - exact (f_equal s_ff E).
  - exact (f_equal s_mfpos E).
  - exact (f_equal s_mfexp E).
  - exact (f_equal s_pt E).
  - exact (f_equal s_cnt E).
Qed.
Lemma up_same d d' r r' : up_out d r = up_out d' r' -> same_result r r' /\ (r <> OFuel -> (out_cnt r + d = out_cnt r' + d')%N).
Proof.
  destruct r as [v en s|en s|m x s|], r' as [v' en' s'|en' s'|m' x' s'|]; cbn [up_out same_result out_cnt]; try discriminate; intros E;
    try (assert (U : up d s = up d' s') by congruence; apply up_proj in U as (U1 & U2 & U3 & U4 & U5 & U6)).
  - assert (v = v') by congruence. now subst.
  - now repeat split.
  - assert (m = m') by congruence. assert (x = x') by congruence. subst. now repeat split.
  - split; [exact I|congruence].
Qed.

(** The run of [xparse] with count [n] at the start, against the run of a parser whose
    statistics start at zero. *)
Lemma run_fresh k ff data e m0 : find_rule (x_entry k) gen_grammar = Some e ->
  x_max k = 0%N /\ m0 = 0%N \/ (st_cnt (x_stats k) < x_max k)%N /\ m0 = (x_max k - st_cnt (x_stats k))%N ->
  let k0 := PCfg m0 (x_entry k) (x_invalid k) (x_recover k) (is_true (x_global k ignore_key)) (is_true (x_global k warning_key)) in
  let x0 := ceval (settings_of k0) gen_grammar (x_no_match k) (parse_fuel (List.length data)) (x_entry k) [] e [] (init_st (settings_of k0) ff data) no_counts in
  let x := run_of k ff data e in
  same_result (fst x) (fst x0) /\ out_cnt (fst x) = (out_cnt (fst x0) + st_cnt (x_stats k))%N /\ (fst x <> OFuel) /\
  forall key a, snd x key a = (st_alt (x_stats k) key a + snd x0 key a)%N.
Proof.
  intros F M k0 x0 x. set (d := st_cnt (x_stats k)) in *.
  assert (Eo : xsettings k = up_settings d (settings_of k0)).
  { unfold xsettings, up_settings, settings_of, k0. cbn [o_ignore o_warn o_invalid o_max k_ignore k_warn k_invalid k_max]. f_equal.
    destruct M as [[-> ->]|[L ->]]; [reflexivity|]. destruct (N.eqb_spec (x_max k) 0), (N.eqb_spec (x_max k - d) 0); try lia. f_equal. lia. }
  assert (Ei : up d (init_st (settings_of k0) ff data) = up 0 (xinit_st k ff data)).
  { unfold xinit_st, up. fold d. change (init_st (xsettings k) ff data) with (init_st (settings_of k0) ff data).
    unfold set_warns, set_cnt, wlist. cbn [s_pt s_cpos s_ctext s_warns s_ff s_errs s_mfpos s_mfexp s_mfinv s_cnt]. rewrite init_cnt, init_warn, N.add_0_r.
    f_equal. destruct (x_state k warning_key); reflexivity. }
  pose (R := fun c c' : counters => forall key a, c' key a = (st_alt (x_stats k) key a + c key a)%N).
  pose proof (ceval_up d (settings_of k0) gen_grammar (x_no_match k) R) as U1.
  assert (Ri : forall k a c c', R c c' -> R (incr k a c) (incr k a c')).
  { intros k1 a1 c c' H key a. unfold incr. rewrite H. destruct (_ && _); lia. }
  specialize (U1 Ri (parse_fuel (List.length data)) (x_entry k) [] e [] (init_st (settings_of k0) ff data) no_counts (st_alt (x_stats k))).
  assert (R0 : R no_counts (st_alt (x_stats k))) by (intros key a; unfold no_counts; lia). specialize (U1 R0).
  rewrite <- Eo, Ei in U1. fold x0 in U1.
  assert (Z : up_settings 0 (xsettings k) = xsettings k).
  { unfold up_settings. destruct (xsettings k) as [? ? ? [mm|]]; cbn; f_equal. now rewrite N.add_0_r. }
  pose proof (ceval_up 0 (xsettings k) gen_grammar (x_no_match k) (fun c c' => forall key a, c' key a = c key a)) as U2.
  assert (Ri2 : forall k a (c c' : counters), (forall key a, c' key a = c key a) -> forall key a1, incr k a c' key a1 = incr k a c key a1).
  { intros k1 a1 c c' H key a. unfold incr. now rewrite H. }
  specialize (U2 Ri2 (parse_fuel (List.length data)) (x_entry k) [] e [] (xinit_st k ff data) (st_alt (x_stats k)) (st_alt (x_stats k)) (fun _ _ => eq_refl)).
  rewrite Z in U2. change (ceval (xsettings k) gen_grammar (x_no_match k) (parse_fuel (List.length data)) (x_entry k) [] e [] (xinit_st k ff data) (st_alt (x_stats k))) with x in U2.
  destruct U1 as [A1 A2], U2 as [B1 B2].
  assert (E : up_out 0 (fst x) = up_out d (fst x0)) by congruence.
  assert (NF : fst x <> OFuel).
  { unfold x, run_of. rewrite ceval_same. apply (gen_rule_fuel _ data); auto; change (s_pt (xinit_st k ff data)) with (s_pt (init_st (xsettings k) ff data)); rewrite init_st_pt; [constructor|].
    rewrite start_rest. reflexivity. }
  apply up_same in E as [E1 E2]. specialize (E2 NF). rewrite N.add_0_r in E2. split; [exact E1|]. split; [exact E2|]. split; [exact NF|].
  intros key a. rewrite <- B2. apply A2.
Qed.
Lemma fresh_eval k0 ff data nm e : find_rule (k_entry k0) gen_grammar = Some e ->
  finish k0 (fst (ceval (settings_of k0) gen_grammar nm (parse_fuel (List.length data)) (k_entry k0) [] e [] (init_st (settings_of k0) ff data) no_counts)) ff
  = parse_with (parse_fuel (List.length data)) gen_grammar k0 ff data.
Proof.
  intros F. rewrite ceval_same. unfold parse_with. rewrite F. now destruct (eval _ _ _ _ _ _ _).
Qed.
Lemma cfg_plain xs k : set_options xs xdefault = Some k ->
  cfg_of k = config_of (flat_map plain xs) /\ x_stats k = the_stats xs /\ x_no_match k = the_label xs.
Proof. intros E. apply set_plain in E. exact E. Qed.

(** the count of a run from zero under a limit *)
Lemma count_limit p ff data e m0 : find_rule (k_entry (config_of p)) gen_grammar = Some e ->
  let k0 := config_of (with_limit m0 p) in
  out_cnt (eval (settings_of k0) gen_grammar (parse_fuel (List.length data)) (k_entry k0) e [] (init_st (settings_of k0) ff data)) =
  if (m0 =? 0)%N then expressions p ff data else N.min (expressions p ff data) (m0 + 1).
Proof.
  intros F k0. destruct (N.eqb_spec m0 0) as [->|Hm].
  - unfold expressions. cbv zeta. rewrite !with_limit_cfg. cbn [k_entry]. rewrite F. subst k0. now rewrite with_limit_cfg.
  - unfold expressions. cbv zeta. subst k0. rewrite !with_limit_cfg. cbn [k_entry]. rewrite F.
    set (o' := settings_of (PCfg m0 _ _ _ _ _)). set (o := settings_of (PCfg 0 _ _ _ _ _)).
    change (init_st o' ff data) with (init_st o ff data).
    set (s := init_st o ff data).
    assert (G : forall o1, ev o1 gen_grammar (k_entry (config_of p)) e [] s (eval o1 gen_grammar (parse_fuel (List.length data)) (k_entry (config_of p)) e [] s)).
    { intros o1. apply eval_ev. apply (gen_rule_fuel _ data); auto; subst s; rewrite init_st_pt; [constructor|]. rewrite start_rest. reflexivity. }
    pose proof (G o) as R. pose proof (G o') as R'. set (r := eval o _ _ _ _ _ _) in *. set (r' := eval o' _ _ _ _ _ _) in *. clearbody r r'.
    assert (Ho : o_ignore o = o_ignore o' /\ o_warn o = o_warn o' /\ o_invalid o = o_invalid o') by (repeat split).
    assert (Hm' : o_max o' = Some m0). { subst o'. cbn. destruct (N.eqb_spec m0 0); [lia|reflexivity]. }
    assert (K : limited m0 r (ev o' gen_grammar (k_entry (config_of p)) e [] s)).
    { apply (proj1 (limit_all o o' m0 Ho eq_refl Hm' gen_grammar) _ _ _ _ _ R). subst s. rewrite init_cnt. lia. }
    unfold limited in K. destruct (N.leb_spec (out_cnt r) m0) as [L|L].
    + rewrite (ev_fun _ _ _ _ _ _ _ _ R' K). lia.
    + destruct K as (rl & s' & K & C). rewrite (ev_fun _ _ _ _ _ _ _ _ R' K). cbn [out_cnt]. lia.
Qed.
Lemma expressions_pos p ff data e : find_rule (k_entry (config_of p)) gen_grammar = Some e -> (0 < expressions p ff data)%N.
Proof.
  intros F. unfold expressions. cbv zeta. rewrite !with_limit_cfg. cbn [k_entry]. rewrite F. set (o := settings_of _).
  assert (R : ev o gen_grammar (k_entry (config_of p)) e [] (init_st o ff data) (eval o gen_grammar (parse_fuel (List.length data)) (k_entry (config_of p)) e [] (init_st o ff data))).
  { apply eval_ev. apply (gen_rule_fuel _ data); auto; rewrite init_st_pt; [constructor|]. rewrite start_rest. reflexivity. }
  apply (proj1 (cnt_mono_all o gen_grammar)) in R. rewrite init_cnt in R. exact R.
Qed.
Lemma expressions_none p ff data : find_rule (k_entry (config_of p)) gen_grammar = None -> expressions p ff data = 0%N.
Proof. intros F. unfold expressions. cbv zeta. rewrite !with_limit_cfg. cbn [k_entry]. now rewrite F. Qed.

(** what a parse does whose counter of expressions starts at or above the limit *)
Definition refused (p : list popt) (ff : list failure) (data : bytes) (x : result * list failure) : Prop :=
  match find_rule (k_entry (config_of p)) gen_grammar with
  | None => x = parse p ff data
  | Some _ => exists errs, x = (if k_recover (config_of p) then Returned VNil (errs ++ [PError (pt_pos (start_pt data)) (Some (k_entry (config_of p))) max_expr_msg]) else Panicked max_expr_msg, ff)
  end.

Lemma parse_find_none p ff data : find_rule (k_entry (config_of p)) gen_grammar = None ->
  parse p ff data = (Returned VNil [PError (Pos 1 0 0) None (MText (b "invalid entrypoint"))], ff).
Proof. intros F. pose proof (parse_run p ff data) as P. now rewrite F in P. Qed.

Theorem xparse_value xs ff data : (forall nm, ~ In (XStatistics None nm) xs) ->
  let p := flat_map plain xs in
  let m := k_max (config_of p) in
  let n := st_cnt (the_stats xs) in
  exists r s', xparse xs ff data = Some (r, s') /\
  (m = 0%N -> r = parse p ff data) /\
  ((n < m)%N -> r = parse (with_limit (m - n) p) ff data) /\
  ((0 < m <= n)%N -> refused p ff data r /\ st_alt s' = st_alt (the_stats xs)) /\
  st_cnt s' = (if (m =? 0)%N then n + expressions p ff data else N.min (n + expressions p ff data) (N.max m n + 1))%N /\
  ((m = 0 \/ n < m)%N -> forall e, find_rule (k_entry (config_of p)) gen_grammar = Some e ->
     let k0 := config_of (with_limit (m - n) p) in
     forall key a, st_alt s' key a = (st_alt (the_stats xs) key a +
       snd (ceval (settings_of k0) gen_grammar (the_label xs) (parse_fuel (List.length data)) (k_entry k0) [] e [] (init_st (settings_of k0) ff data) no_counts) key a)%N).
Proof.
  intros NN p m n. destruct (set_some xs xdefault NN) as [k E]. destruct (cfg_plain _ _ E) as (C1 & C2 & C3).
  unfold xparse. rewrite E, xparse_run.
  assert (Km : x_max k = m) by (unfold m; fold p in C1; rewrite <- C1; reflexivity).
  assert (Kn : st_cnt (x_stats k) = n) by (unfold n; now rewrite C2).
  fold p in C1. assert (Ke : x_entry k = k_entry (config_of p)) by (rewrite <- C1; reflexivity).
  destruct (find_rule (x_entry k) gen_grammar) as [e|] eqn:F.
  2: { rewrite Ke in F. eexists _, _. split; [reflexivity|]. split; [intros _; now rewrite parse_find_none|].
       split. { intros _. rewrite parse_find_none; [reflexivity|]. rewrite with_limit_cfg. exact F. }
       split. { intros _. split; [unfold refused; rewrite F; now rewrite parse_find_none|now rewrite C2]. }
       split. { rewrite Kn. rewrite expressions_none by exact F. destruct (N.eqb_spec m 0); lia. }
       intros _ e F'. congruence. }
  cbv zeta. eexists _, _. split; [reflexivity|].
  assert (NF : exists q, parse_fuel (List.length data) = S q).
  { destruct (parse_fuel (List.length data)) as [|q] eqn:Q; [|eauto]. exfalso.
    assert (X : eval (xsettings k) gen_grammar (parse_fuel (List.length data)) (x_entry k) e [] (init_st (xsettings k) ff data) <> OFuel).
    { apply (gen_rule_fuel _ data); auto; rewrite init_st_pt; [constructor|]. rewrite start_rest. reflexivity. }
    rewrite Q in X. now apply X. }
  assert (Lim : forall m0, config_of (with_limit m0 p) = PCfg m0 (x_entry k) (x_invalid k) (x_recover k) (is_true (x_global k ignore_key)) (is_true (x_global k warning_key))).
  { intros m0. rewrite with_limit_cfg, <- C1. reflexivity. }
  assert (Fe : find_rule (k_entry (config_of p)) gen_grammar = Some e) by now rewrite <- Ke.
  assert (OC : forall d r, r <> OFuel -> out_count d r = out_cnt r) by (intros d [] Q; cbn; congruence).
  destruct (N.eq_dec m 0) as [M0|M0]; [|destruct (N.lt_ge_cases n m) as [L|L]].
  - destruct (run_fresh k ff data e 0 F) as (A1 & A2 & A3 & A4); [left; lia|]. cbv zeta in *. rewrite <- !Lim in *.
    split; [intros _|split; [lia|split; [lia|split]]].
    + rewrite (same_finish _ _ _ _ A1), C1. fold p. clear A1 A2 A3 A4.
      assert (Q : config_of (with_limit 0 p) = config_of p) by (rewrite Lim, <- C1; unfold cfg_of; rewrite Km, M0; reflexivity).
      rewrite Q, Ke. now rewrite fresh_eval.
    + cbn [st_cnt]. rewrite OC by exact A3. rewrite A2, Kn, M0. cbn [N.eqb]. rewrite ceval_same. rewrite Ke.
      pose proof (count_limit p ff data e 0 Fe) as Q. cbv zeta in Q. rewrite with_limit_cfg in Q at 2. cbn [k_entry] in Q. rewrite Q. cbn [N.eqb]. lia.
    + intros _ e0 F0. rewrite Fe in F0. injection F0 as <-. intros key a. cbn [st_alt]. rewrite A4, C2, C3. replace (m - n)%N with 0%N by lia.
      assert (Q : k_entry (config_of (with_limit 0 p)) = x_entry k) by (rewrite Lim; reflexivity). rewrite Q. reflexivity.
  - destruct (run_fresh k ff data e (m - n) F) as (A1 & A2 & A3 & A4); [right; lia|]. cbv zeta in *. rewrite <- !Lim in *.
    split; [lia|split; [intros _|split; [lia|split]]].
    + rewrite (same_finish _ _ _ _ A1). rewrite C1. fold p.
      assert (Q : forall r, finish (config_of p) r ff = finish (config_of (with_limit (m - n) p)) r ff) by (intros r; rewrite Lim, <- C1; reflexivity).
      rewrite Q. replace (x_entry k) with (k_entry (config_of (with_limit (m - n) p))) by (rewrite with_limit_cfg; cbn [k_entry]; congruence).
      rewrite fresh_eval by (rewrite with_limit_cfg; exact Fe). reflexivity.
    + cbn [st_cnt]. rewrite OC by exact A3. rewrite A2, Kn. rewrite ceval_same. rewrite Ke.
      pose proof (count_limit p ff data e (m - n) Fe) as Q. cbv zeta in Q. rewrite with_limit_cfg in Q at 2. cbn [k_entry] in Q. rewrite Q.
      destruct (N.eqb_spec (m - n) 0), (N.eqb_spec m 0); lia.
    + intros _ e0 F0. rewrite Fe in F0. injection F0 as <-. intros key a. cbn [st_alt]. rewrite A4, C2, C3. 
      assert (Q : k_entry (config_of (with_limit (m - n) p)) = x_entry k) by (rewrite Lim; reflexivity). rewrite Q. reflexivity.
  - destruct NF as [q Q]. unfold run_of. rewrite Q. cbn [ceval]. unfold cstep.
    assert (O : over_limit (xsettings k) (tick (xinit_st k ff data)) = true).
    { unfold over_limit, xsettings, xinit_st. cbn [o_max tick set_cnt s_cnt]. rewrite Km, Kn. destruct (N.eqb_spec m 0); [lia|]. apply N.ltb_lt. lia. }
    rewrite O. cbn [fst snd out_count st_cnt st_alt].
    split; [lia|split; [lia|split; [intros _|split; [|lia]]]].
    + split; [|now rewrite C2]. unfold refused. rewrite Fe. exists (s_errs (init_st (xsettings k) ff data)). cbn [finish]. rewrite C1, Ke. fold p.
      assert (W : s_pt (tick (xinit_st k ff data)) = start_pt data) by (change (s_pt (init_st (xsettings k) ff data) = start_pt data); apply init_st_pt). rewrite W.
      change (s_ff (tick (xinit_st k ff data))) with (s_ff (init_st (xsettings k) ff data)). rewrite init_ff. reflexivity.
    + cbn [tick set_cnt s_cnt]. change (s_cnt (xinit_st k ff data)) with (st_cnt (x_stats k)). rewrite Kn. pose proof (expressions_pos p ff data e Fe). destruct (N.eqb_spec m 0); lia.
Qed.

(** ** Which counters change *)
Lemma nodes_child : forall e rule path i e', child e i = Some e' -> incl (nodes_of rule (i :: path) e') (nodes_of rule path e).
Proof.
  intros e rule path i e' C x Hx.
  assert (L : forall l j, nth_error l i = Some e' -> In x (nodes_of rule (i + j :: path) e') -> In x (nodes_list rule path j l)).
  { revert Hx C. clear. intros _ _. intros l. revert i. induction l as [|y l IH]; intros i j E H; [now destruct i|]. cbn [nodes_list]. apply in_or_app.
    destruct i as [|i]; cbn in E; [injection E as ->; left; exact H|right]. apply (IH i (S j) E). now rewrite Nat.add_succ_r. }
  destruct e; cbn [child] in C; try discriminate; rewrite ?nodes_choice, ?nodes_seq; cbn [nodes_of].
  all: try (destruct i; [|discriminate]; injection C as ->; right; exact Hx).
  all: right; apply L; [exact C|now rewrite Nat.add_0_r].
Qed.
Definition at_node (rule : string) (path : list nat) (e : expr) : Prop :=
  exists e0, find_rule rule gen_grammar = Some e0 /\ incl (nodes_of rule path e) (nodes_of rule [] e0).
Lemma at_node_child rule path e i e' : at_node rule path e -> child e i = Some e' -> at_node rule (i :: path) e'.
Proof. intros (e0 & F & I) C. exists e0. split; [exact F|]. intros x Hx. apply I. eapply nodes_child; eauto. Qed.
Lemma at_node_ref rule path name e : at_node rule path (ERef name) -> find_rule name gen_grammar = Some e -> at_node name [] e.
Proof. intros _ F. exists e. split; [exact F|]. apply incl_refl. Qed.
Lemma at_node_in rule path e : at_node rule path e -> In ((rule, Some path), e) (all_nodes gen_grammar).
Proof. intros (e0 & F & I). apply (find_rule_nodes _ _ _ F). apply I. apply nodes_self. Qed.

(** the choices of the grammar: name of the counter, number of alternatives *)
Definition choices_of (l : list (node * expr)) : list (bytes * nat) :=
  flat_map (fun x => match x with ((rule, Some path), EChoice es) => [(choice_ident rule path, List.length es)] | _ => [] end) l.
Lemma choices_in rule path es : at_node rule path (EChoice es) -> In (choice_ident rule path, List.length es) (choices_of (all_nodes gen_grammar)).
Proof. intros H. apply at_node_in in H. apply in_flat_map. eexists. split; [exact H|]. left. reflexivity. Qed.
Lemma choices_known : forallb (fun x => match x with ((rule, Some path), EChoice _) => negb (fst (find_choice rule path choice_table) =? 0) | _ => true end) (all_nodes gen_grammar) = true.
Proof. vm_compute. reflexivity. Qed.

Lemma ceval_keys o nm n rule path e en s c : at_node rule path e ->
  let x := ceval o gen_grammar nm n rule path e en s c in fst x = OFuel \/
  forall key a, snd x key a <> c key a -> (c key a < snd x key a)%N /\ exists len, In (key, len) (choices_of (all_nodes gen_grammar)) /\
    (a = nm \/ exists i, 1 <= i <= len /\ a = itoa i).
Proof.
  intros H x.
  set (I := fun (c : counters) (n : N) (c' : counters) (n' : N) =>
    forall key a, c' key a = c key a \/ (c key a < c' key a)%N /\ exists len, In (key, len) (choices_of (all_nodes gen_grammar)) /\
    (a = nm \/ exists i, 1 <= i <= len /\ a = itoa i)).
  destruct (ceval_inv o gen_grammar nm at_node at_node_child at_node_ref I) with (n := n) (rule := rule) (path := path) (e := e) (en := en) (s := s) (c := c) as [K|K].
  - intros c0 n0 key a. now left.
  - intros c0 n0 c1 n1 c2 n2 A B key a. specialize (A key a). specialize (B key a). destruct A as [A|[A A']], B as [B|[B B']].
    + left. congruence.
    + right. split; [lia|exact B'].
    + right. split; [lia|exact A'].
    + right. split; [lia|exact A'].
  - intros c0 n0 key a. now left.
  - intros rule0 path0 es c0 n0 c1 n1 a0 N A B key a. unfold incr. destruct (beqb (choice_ident rule0 path0) key && beqb a0 a) eqn:E; [|apply A].
    apply andb_true_iff in E as [E1 E2]. apply beqb_eq in E1, E2. subst key a. right. split.
    + destruct (A (choice_ident rule0 path0) a0) as [A1|[A1 _]]; lia.
    + exists (List.length es). split; [now apply choices_in|]. destruct B as [->|(i & Hi & ->)]; [now left|right]. exists (i + 1). split; [lia|reflexivity].
  - exact H.
  - now left.
  - right. intros key a D. destruct (K key a) as [K1|K1]; [now destruct D|exact K1].
Qed.

(** ** At most one counter step per expression *)
Definition total (l : list (bytes * bytes)) (c : counters) : N := fold_right (fun x t => (c (fst x) (snd x) + t)%N) 0%N l.
Lemma total_incr k a c l : NoDup l -> (total l (incr k a c) <= total l c + 1)%N.
Proof.
  induction 1 as [|[k1 a1] l N _ IH]; cbn [total fold_right]; [lia|]. fold (total l (incr k a c)) (total l c). cbn [fst snd]. unfold incr at 1.
  destruct (beqb k k1 && beqb a a1) eqn:E; [|lia]. apply andb_true_iff in E as [E1 E2]. apply beqb_eq in E1, E2. subst k1 a1.
  assert (Q : total l (incr k a c) = total l c); [|lia]. clear IH. induction l as [|[k1 a1] l IH]; [reflexivity|]. cbn [total fold_right].
  fold (total l (incr k a c)) (total l c). rewrite IH by (intros H; apply N; now right). cbn [fst snd]. unfold incr.
  destruct (beqb k k1 && beqb a a1) eqn:E; [|reflexivity]. apply andb_true_iff in E as [E1 E2]. apply beqb_eq in E1, E2. subst k1 a1. destruct N. now left.
Qed.
Lemma ceval_total o g nm n rule path e en s c l : NoDup l ->
  let x := ceval o g nm n rule path e en s c in fst x = OFuel \/ (total l (snd x) + s_cnt s <= total l c + out_cnt (fst x))%N.
Proof.
  intros D x.
  apply (ceval_inv o g nm (fun _ _ _ => True)) with (I := fun c n c' n' => (total l c' + n <= total l c + n')%N); try (intros; exact I); try (intros; lia).
  intros rule0 path0 es c0 n0 c1 n1 a0 _ A _. pose proof (total_incr (choice_ident rule0 path0) a0 c1 l D). lia.
Qed.

(** ** The choice of rule init *)
Definition top : bytes := choice_ident "init" [0; 2; 0].
Definition init_alts : list expr := match init_conf with ELab _ (EChoice l) => l | _ => [] end.
Lemma init_conf_alts : init_conf = ELab "conf" (EChoice init_alts).
Proof. reflexivity. Qed.
Definition inside (rule : string) (path : list nat) (e : expr) : Prop :=
  at_node rule path e /\ (rule <> "init"%string \/ exists p i, path = p ++ i :: [0; 2; 0]).
Lemma no_ref_init : forallb (fun x => match snd x with ERef name => negb (String.eqb name "init") | _ => true end) (all_nodes gen_grammar) = true.
Proof. vm_compute. reflexivity. Qed.
Lemma top_alone : forallb (fun x => match x with ((rule, Some path), EChoice _) =>
  if String.eqb rule "init" && (if list_eq_dec Nat.eq_dec path [0; 2; 0] then true else false) then true else negb (beqb (choice_ident rule path) top) | _ => true end) (all_nodes gen_grammar) = true.
Proof. vm_compute. reflexivity. Qed.
Lemma ceval_inside o nm n rule path e en s c : inside rule path e ->
  let x := ceval o gen_grammar nm n rule path e en s c in fst x = OFuel \/ forall a, snd x top a = c top a.
Proof.
  intros H x.
  apply (ceval_inv o gen_grammar nm inside) with (I := fun c n c' n' => forall a, c' top a = c top a); try (intros; congruence).
  - intros rule0 path0 e0 i e1 [N [D|(p & j & ->)]] C; (split; [now apply at_node_child with e0|]); [now left|right]. exists (i :: p), j. reflexivity.
  - intros rule0 path0 name e0 [N _] F. split; [now apply at_node_ref with rule0 path0|]. left. intros ->.
    apply at_node_in in N. pose proof (proj1 (forallb_forall _ _) no_ref_init _ N) as Q. discriminate Q.
  - intros rule0 path0 es c0 n0 c1 n1 a0 [N D] A _ a. unfold incr. destruct (beqb (choice_ident rule0 path0) top) eqn:E; [|apply A]. exfalso.
    apply at_node_in in N. pose proof (proj1 (forallb_forall _ _) top_alone _ N) as Q. cbv beta iota in Q. rewrite E in Q.
    destruct (String.eqb_spec rule0 "init") as [->|Nr]; [|discriminate Q]. destruct (list_eq_dec Nat.eq_dec path0 [0; 2; 0]) as [->|Np]; [|discriminate Q].
    destruct D as [D|(p & j & D)]; [congruence|]. apply (f_equal (@List.length nat)) in D. rewrite app_length in D. cbn in D. lia.
Qed.
Lemma inside_alt i e : nth_error init_alts i = Some e -> inside "init" (i :: [0; 2; 0]) e.
Proof.
  intros E. split; [|right; exists [], i; reflexivity].
  apply at_node_child with (EChoice init_alts); [|exact E]. apply at_node_child with (ELab "conf" (EChoice init_alts)); [|reflexivity].
  apply at_node_child with (ESeq [EStateCode SInitState; EAndCode PInitParser; init_conf]); [|reflexivity]. apply at_node_child with gen_init; [|reflexivity].
  exists gen_init. split; [reflexivity|apply incl_refl].
Qed.
(** What happens to the counters of this choice *)
Definition bump (c : counters) (x : option bytes) (c' : counters) : Prop :=
  forall a, c' top a = (c top a + (if (match x with Some y => beqb y a | None => false end : bool) then 1 else 0))%N.
Lemma incr_bump c a c' : (forall x, c' top x = c top x) -> bump c (Some a) (incr top a c').
Proof. intros H x. unfold incr. rewrite beqb_refl. cbn [andb]. rewrite H. destruct (beqb a x); lia. Qed.
Lemma choice_bump o nm n en : forall es i c0 s c, (forall j e, nth_error es j = Some e -> nth_error init_alts (i + j) = Some e) ->
  (forall a, c top a = c0 top a) ->
  let x := cchoice_loop nm top (fun i => ceval o gen_grammar nm n "init" (i :: [0; 2; 0])) i es en s c in
  match fst x with
  | OOk v _ s' => exists j e en' s1, nth_error init_alts j = Some e /\ eval o gen_grammar n "init" e [] s1 = OOk v en' s' /\ bump c0 (Some (itoa (j + 1))) (snd x)
  | OFail _ _ => bump c0 (Some nm) (snd x)
  | OPanic _ _ _ => bump c0 None (snd x)
  | OFuel => True
  end.
Proof.
  induction es as [|e es IH]; intros i c0 s c H Hc.
  - cbn. now apply incr_bump.
  - cbn [cchoice_loop]. assert (E : nth_error init_alts i = Some e) by (specialize (H 0 e eq_refl); now rewrite Nat.add_0_r in H).
    pose proof (ceval_inside o nm n "init" (i :: [0; 2; 0]) e [] s c (inside_alt i e E)) as K. pose proof (ceval_same o gen_grammar nm n "init" (i :: [0; 2; 0]) e [] s c) as Es.
    destruct (ceval o gen_grammar nm n "init" (i :: [0; 2; 0]) e [] s c) as [r c']. cbn [fst snd] in K, Es. cbv zeta in K. cbn [fst snd] in K.
    destruct r as [v en' s'|en' s'|m x s'|].
    + destruct K as [K|K]; [discriminate|]. cbn [fst snd]. exists i, e, en', s. split; [exact E|]. split; [now symmetry|]. apply incr_bump. intros a. now rewrite K.
    + destruct K as [K|K]; [discriminate|]. apply IH; [|intros a; now rewrite K]. intros j e1 N. specialize (H (S j) e1 N). now rewrite Nat.add_succ_r in H.
    + destruct K as [K|K]; [discriminate|]. cbn [fst snd]. intros a. rewrite K, Hc. lia.
    + exact I.
Qed.
Definition with_warnings (v : val) (w : option (list position)) : val :=
  match act_ret_config v w with RVal v => v | _ => VNil end.
Definition init_post (o : settings) (nm : bytes) (c : counters) (x : out * counters) : Prop :=
  match fst x with
  | OOk v _ s' => exists j e en' s1 s2 v1 w n', nth_error init_alts j = Some e /\ eval o gen_grammar n' "init" e [] s1 = OOk v1 en' s2 /\
      s_errs s2 = s_errs s' /\ v = with_warnings v1 w /\ bump c (Some (itoa (j + 1))) (snd x)
  | OFail _ _ => bump c (Some nm) (snd x)
  | OPanic _ _ _ => bump c None (snd x)
  | OFuel => True
  end.
Lemma init_bump o nm n s c : init_post o nm c (ceval o gen_grammar nm n "init" [] gen_init [] s c).
Proof.
  assert (Z : bump c None c) by (intros a; lia).
  rewrite gen_init_eq, init_conf_alts. destruct n as [|n]; [exact I|]. cbn [ceval]. unfold cstep at 1. destruct (over_limit o (tick s)); [exact Z|].
  destruct n as [|n]; [exact I|]. cbn [ceval]. unfold cstep at 1. destruct (over_limit o (tick (tick s))); [exact Z|].
  destruct n as [|n]; [exact I|]. cbn [cseq_loop ceval].
  unfold cstep at 1. destruct (over_limit o (tick (tick (tick s)))) eqn:L1; [exact Z|]. unfold step at 1. rewrite L1. cbv zeta. cbn [cseq_loop].
  unfold cstep at 1. match goal with |- context [over_limit o (tick (run_state o ?x ?y))] => set (s3 := run_state o x y) end.
  destruct (over_limit o (tick s3)) eqn:L2; [exact Z|]. unfold step at 1. rewrite L2. cbv zeta. cbn [run_predicate cseq_loop].
  unfold cstep at 1. set (s4 := set_ff [] (tick s3)). destruct (over_limit o (tick s4)) eqn:L3; [exact Z|].
  destruct n as [|n]; [exact I|]. cbn [ceval]. unfold cstep at 1. destruct (over_limit o (tick (tick s4))); [exact Z|]. fold top.
  pose proof (choice_bump o nm n [] init_alts 0 c (tick (tick s4)) c (fun j e E => E) (fun a => eq_refl)) as K. cbv zeta in K.
  match goal with |- context [cchoice_loop ?a ?b ?f ?d ?e ?g ?h ?i] => destruct (cchoice_loop a b f d e g h i) as [r c'] end.
  cbn [fst snd] in K. destruct r as [v en' s'|en' s'|m x s'|]; cbn [cseq_loop fst snd].
  - destruct K as (j & e & en1 & s1 & K1 & K2 & K3). cbn [run_action act_ret_config]. exists j, e, en1, s1, s', v. eexists _, n. split; [exact K1|]. split; [exact K2|].
    split; [reflexivity|]. split; [|exact K3]. unfold with_warnings, act_ret_config. reflexivity.
  - exact K.
  - exact K.
  - exact I.
Qed.

(** ** The values of the two alternatives *)
Definition sections (c : config) : list section := cf_input c ++ cf_filter c ++ cf_output c.
Lemma alt2_value o n s v en s' e : nth_error init_alts 1 = Some e -> eval o gen_grammar n "init" e [] s = OOk v en s' ->
  exists c, v = VConfig c /\ sections c = [].
Proof.
  intros E H. assert (R : ev o gen_grammar "init" e [] s (OOk v en s')) by (rewrite <- H; apply eval_ev; congruence). clear H.
  cbn in E. injection E as <-. apply RunInv.inv_act in R as [[_ R]|[_ (r1 & _ & R)]]; [discriminate|]. destruct r1; try discriminate. cbn [act_out run_action] in R. inversion R; subst.
  eexists. split; reflexivity.
Qed.
Lemma config_loop_some com : forall vs (first : bool) i f o i' f' o', config_loop com first vs i f o = inl (i', f', o') ->
  List.length i' + List.length f' + List.length o' = List.length i + List.length f + List.length o + List.length vs.
Proof.
  induction vs as [|v vs IH]; intros first i f o i' f' o'; cbn [config_loop].
  - intros E. injection E as <- <- <-. cbn. lia.
  - destruct v; try discriminate. destruct (ps_type _); try discriminate; intros E; apply IH in E; rewrite E, app_length; cbn; lia.
Qed.
Lemma section_value o n s v en s' e : find_rule "pluginSection" gen_grammar = Some e -> ev o gen_grammar n e [] s (OOk v en s') -> exists x, v = VSection x.
Proof.
  intros E R. vm_compute in E. injection E as <-. apply RunInv.inv_act in R as [[_ R]|[_ (r1 & _ & R)]]; [discriminate|]. destruct r1; try discriminate.
  cbn [act_out] in R. cbn [run_action] in R. unfold act_plugin_section in R. destruct (lookup _ _) in R; try discriminate.
  destruct (all_some _ _) in R; [|discriminate]. inversion R; subst. eauto.
Qed.

Definition config_part (i : nat) : expr := match gen_config with EAct _ (ESeq l) => match nth_error l i with Some (ELab _ e) => e | _ => EAny end | _ => EAny end.
Lemma gen_config_eq : gen_config = EAct (AConfig "ps" "pss" "psComment" "footerComment")
  (ESeq [ELab "psComment" (config_part 0); ELab "ps" (ERef "pluginSection"); ELab "pss" (config_part 2); ELab "footerComment" (config_part 3); ENot EAny]).
Proof. reflexivity. Qed.
Lemma config_value o s v en s' : ev o gen_grammar "config" gen_config [] s (OOk v en s') -> exists c, v = VConfig c /\ (s_errs s' = [] -> sections c <> []).
Proof.
  rewrite gen_config_eq. generalize (config_part 0), (config_part 2), (config_part 3). intros e0 e2 e3 R.
  apply RunInv.inv_act in R as [[_ R]|[_ (r1 & H & R)]]; [discriminate|]. destruct r1 as [v1 en1 s1| | |]; try discriminate.
  assert (P : exists x, lookup "ps" en1 = VSection x).
  { clear R. apply RunInv.inv_seq in H as [[_ H]|[_ H]]; [discriminate|].
    apply inv_evs_cons in H as (r2 & H2 & H). destruct r2 as [v2 en2 s2| | |]; try discriminate. apply RunInv.inv_lab in H2 as [[_ H2]|[_ (r & _ & H2)]]; [discriminate|]. destruct r; try discriminate. inversion H2; subst; clear H2.
    apply inv_evs_cons in H as (r2 & H2 & H). destruct r2 as [v2' en2 s2'| | |]; try discriminate. apply RunInv.inv_lab in H2 as [[_ H2]|[_ (r & S & H2)]]; [discriminate|]. destruct r as [v3 en3 s3| | |]; try discriminate. inversion H2; subst; clear H2.
    apply inv_evs_cons in H as (r2 & H2 & H). destruct r2 as [v4 en2 s4| | |]; try discriminate. apply RunInv.inv_lab in H2 as [[_ H2]|[_ (r & _ & H2)]]; [discriminate|]. destruct r; try discriminate. inversion H2; subst; clear H2.
    apply inv_evs_cons in H as (r2 & H2 & H). destruct r2 as [v5 en2 s5| | |]; try discriminate. apply RunInv.inv_lab in H2 as [[_ H2]|[_ (r & _ & H2)]]; [discriminate|]. destruct r; try discriminate. inversion H2; subst; clear H2.
    apply inv_evs_cons in H as (r2 & H2 & H). destruct r2 as [v6 en2 s6| | |]; try discriminate. apply RunInv.inv_not in H2 as [[_ H2]|[_ (r & _ & H2)]]; [discriminate|]. destruct r; try discriminate. inversion H2; subst; clear H2.
    apply inv_evs_nil in H. inversion H; subst. cbn [lookup bind String.eqb Ascii.eqb Bool.eqb].
    destruct (find_rule "pluginSection" gen_grammar) as [esec|] eqn:F; [|discriminate F].
    apply (RunInv.inv_ref _ _ _ _ _ _ _ _ F) in S as [[_ S]|[_ (r & S & Q)]]; [discriminate|]. destruct r; try discriminate. inversion Q; subst.
    exact (section_value _ _ _ _ _ _ _ F S). }
  destruct P as [x P]. cbn [act_out run_action] in R. rewrite P in R. unfold act_config in R. cbn [iface_slice] in R.
  destruct (config_loop _ _ _ _ _ _) as [[[i f] o1]|m] eqn:E; inversion R; subst; clear R.
  - eexists. split; [reflexivity|]. intros _ N. apply config_loop_some in E. cbn [List.length app] in E. unfold sections in N. cbn [cf_input cf_filter cf_output] in N.
    apply (f_equal (@List.length section)) in N. rewrite !app_length in N. cbn in N. lia.
  - eexists. split; [reflexivity|]. cbn [add_err_at set_errs s_errs]. intros N. destruct (s_errs _) in N; discriminate.
Qed.
Lemma alt1_value o n s v en s' e : nth_error init_alts 0 = Some e -> eval o gen_grammar n "init" e [] s = OOk v en s' ->
  exists c, v = VConfig c /\ (s_errs s' = [] -> sections c <> []).
Proof.
  intros E H. assert (R : ev o gen_grammar "init" e [] s (OOk v en s')) by (rewrite <- H; apply eval_ev; congruence). clear H.
  cbn in E. injection E as <-. apply RunInv.inv_act in R as [[_ R]|[_ (r1 & H & R)]]; [discriminate|]. destruct r1 as [v1 en1 s1| | |]; try discriminate.
  cbn [act_out run_action] in R. inversion R; subst; clear R.
  apply RunInv.inv_seq in H as [[_ H]|[_ H]]; [discriminate|].
  apply inv_evs_cons in H as (r2 & H2 & H). destruct r2 as [v2 en2 s2| | |]; try discriminate. apply RunInv.inv_lab in H2 as [[_ H2]|[_ (r & S & H2)]]; [discriminate|]. destruct r as [v3 en3 s3| | |]; try discriminate. inversion H2; subst; clear H2.
  apply inv_evs_cons in H as (r2 & H2 & H). destruct r2 as [v4 en2 s4| | |]; try discriminate.
  pose proof (ev_errs _ _ _ _ _ _ _ H2) as [l El]. cbn [out_st] in El.
  apply RunInv.inv_not in H2 as [[_ H2]|[_ (r & _ & H2)]]; [discriminate|]. destruct r; try discriminate. inversion H2; subst; clear H2.
  apply inv_evs_nil in H. inversion H; subst. cbn [lookup bind String.eqb Ascii.eqb Bool.eqb].
  apply (RunInv.inv_ref _ _ _ _ gen_config) in S; [|reflexivity]. destruct S as [[_ S]|[_ (r & S & Q)]]; [discriminate|]. destruct r; try discriminate. inversion Q; subst.
  apply config_value in S as (c & -> & S). exists c. split; [reflexivity|]. intros Z. apply S. cbn [set_cur s_errs] in Z. rewrite El in Z. now apply app_eq_nil in Z.
Qed.
