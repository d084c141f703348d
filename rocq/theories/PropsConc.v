(** C48: calls of Parse at the same time. *)
From Coq Require Import List NArith Bool String Arith Lia.
From Verif Require Import Bytes Utf8 F64 Ast Peg Actions Engine Parser GrammarGen Run Conc ConcFacts PropsEngine PropsRound.
Import ListNotations.

(** ** C48: calls of Parse that run at the same time do not influence each other

    [begin_calls ff calls]: all calls are running, none has accessed the shared
    variable, whose content is [ff]; a schedule is the list of the numbers of the
    calls that make the next access.

    The claim "whatever the schedule, a call returns what it returns alone" is
    false (C48_refuted below).  True is: it does, or it returns the run time
    error of an index expression, and nothing else. *)
Theorem C48_any_schedule_partial : forall calls ff sched i opts data a,
  nth_error calls i = Some (CallParse opts data) ->
  answer_of i (schedule sched (begin_calls ff calls)) = Some a ->
  a = Parsed (fst (parse opts [] data)) \/
  (k_recover (config_of opts) = true /\
   exists errs p rule, a = Parsed (Returned VNil (errs ++ [PError p (Some rule) index_msg]))) \/
  (k_recover (config_of opts) = false /\ a = Parsed (Panicked index_msg)).
Proof.
  intros calls ff sched i opts data a E H.
  set (P := fun j a => forall opts data, nth_error calls j = Some (CallParse opts data) ->
                       exists r, a = Parsed r /\ (r = fst (parse opts [] data) \/ index_failure opts r)).
  assert (A : all_always P (schedule sched (begin_calls ff calls))).
  { apply schedule_always. intros j p X. unfold begin_calls in X. cbn [snd] in X. rewrite nth_error_map in X.
    destruct (nth_error calls j) as [c|] eqn:C; [|discriminate X]. injection X as <-. destruct c as [opts1 data1|]; cbn [start].
    - eapply always_map; [exact (parse_any opts1 data1 [])|]. intros r R opts2 data2 X. rewrite C in X. injection X as <- <-. eauto.
    - assert (T : always (fun _ => True) pfarthest).
      { unfold pfarthest, first_failure. cbn [always]. intros [|f0 l0]; cbn [always]; [exact I|].
        intros [|f1 l1]; cbn [always]; [exact I|]. intros [|f2 l2]; cbn [always]; [exact I|]. intros [|f3 l3]; cbn [always]; auto. }
      eapply always_map; [exact T|]. intros r _ opts2 data2 X. rewrite C in X. discriminate X. }
  unfold answer_of in H. destruct (nth_error (snd (schedule sched (begin_calls ff calls))) i) as [p|] eqn:X; [|discriminate H].
  pose proof (A _ _ X) as Y. destruct p as [a'| |]; try discriminate H. injection H as ->. destruct (Y _ _ E) as (r & -> & [->|R]); [now left|].
  right. unfold index_failure in R. destruct (k_recover (config_of opts)).
  - left. split; [reflexivity|]. destruct R as (errs & p & rule & ->). eauto.
  - right. split; [reflexivity|]. now rewrite R.
Qed.
Print Assumptions C48_any_schedule_partial.

(** A call is only disturbed by a call of Parse that begins while it runs: if
    all accesses of the calls that run beside call [i] come after their first one,
    call [i] returns what it returns alone. *)
Theorem C48_undisturbed_partial : forall calls ff s1 s2 i opts data a,
  nth_error calls i = Some (CallParse opts data) ->
  ~ In i s1 ->
  (forall j, In j s2 -> j <> i -> In j s1 \/ nth_error calls j = Some CallFarthest) ->
  answer_of i (schedule (s1 ++ s2) (begin_calls ff calls)) = Some a ->
  a = Parsed (fst (parse opts [] data)).
Proof.
  intros calls ff s1 s2 i opts data a E N B H. rewrite schedule_app in H. set (m0 := begin_calls ff calls) in *.
  assert (B0 : begun [] m0).
  { intros j p X. unfold m0, begin_calls in X. cbn [snd] in X. rewrite nth_error_map in X. destruct (nth_error calls j) as [c|]; [|discriminate X].
    injection X as <-. split; [apply start_begins|intros []]. }
  destruct (schedule_begun s1 [] m0 B0) as (seen & B1 & S1).
  assert (E1 : nth_error (snd (schedule s1 m0)) i = Some (mapp Parsed (pparse opts data))).
  { rewrite schedule_untouched by exact N. unfold m0, begin_calls. cbn [snd]. now rewrite nth_error_map, E. }
  assert (F : forall j q, nth_error calls j = Some CallFarthest -> nth_error (snd (schedule s1 m0)) j = Some q -> keeps q).
  { intros j q C. assert (G : forall is m, (forall q, nth_error (snd m) j = Some q -> keeps q) -> forall q, nth_error (snd (schedule is m)) j = Some q -> keeps q).
    { induction is as [|k is IH]; intros m G; [exact G|]. cbn [schedule fold_left]. apply IH. intros q1 X. apply pick_nth in X as (q0 & Q & [[_ ->]|[_ ->]]); [auto|]. apply keeps_access. auto. }
    apply G. intros q1 X. unfold m0, begin_calls in X. cbn [snd] in X. rewrite nth_error_map, C in X. injection X as <-. cbn [start].
    apply keeps_map. unfold pfarthest, first_failure. cbn [keeps]. intros [|f0 l0]; cbn [keeps]; [exact I|].
    intros [|f1 l1]; cbn [keeps]; [exact I|]. intros [|f2 l2]; cbn [keeps]; [exact I|]. intros [|f3 l3]; cbn [keeps]; auto. }
  destruct (schedule_mono (fun x => x = Parsed (fst (parse opts [] data))) i s2 (schedule s1 m0) _ E1) as (p & P1 & P2).
  - eapply mono_map; [exact (parse_mono opts data [] _)|]. intros r ->. reflexivity.
  - intros j q J1 J2 J3. destruct (B j J1 J2) as [X|X]; [|now apply (F j)]. apply (B1 j q J3). apply S1. now left.
  - unfold answer_of in H. rewrite P1 in H. destruct p; try discriminate H. injection H as ->. exact P2.
Qed.
Print Assumptions C48_undisturbed_partial.

(** A call that runs alone from start to end (callers that hold a lock) returns
    what [parse] says, and leaves its failure record. *)
Theorem C48_one_at_a_time : forall opts data i m,
  nth_error (snd m) i = Some (start (CallParse opts data)) ->
  exists k, forall n, k <= n ->
    schedule (repeat i n) m = (snd (parse opts (fst m) data), update i (Done (Parsed (fst (parse opts (fst m) data)))) (snd m)).
Proof.
  intros opts data i m E. destruct (alone i _ m E) as (k & H). exists k. intros n L. rewrite (H n L). cbn [start]. rewrite exec_map.
  destruct (parse_exec opts (fst m) data) as [X|X]; [now rewrite X|]. exfalso. exact (proj1 (C01_terminates opts (fst m) data) X).
Qed.
Print Assumptions C48_one_at_a_time.

(** Every call finishes, whatever the schedule, if it gets its turn again and again. *)
Theorem C48_all_finish : forall calls ff (sched : nat -> nat),
  (forall i, i < List.length calls -> forall t, exists t', t <= t' /\ sched t' = i) ->
  exists n, forall i, i < List.length calls ->
    exists a, answer_of i (schedule (map sched (seq 0 n)) (begin_calls ff calls)) = Some a.
Proof.
  intros calls ff sched F. set (m := begin_calls ff calls).
  assert (G : forall k, k <= List.length calls -> exists n, forall i, i < k -> exists a, nth_error (snd (schedule (prefix_of sched n) m)) i = Some (Done a)).
  { induction k as [|k IH]; intros L; [exists 0; intros i Hi; lia|]. destruct IH as (n & H); [lia|].
    assert (X : exists p, nth_error (snd (schedule (prefix_of sched n) m)) k = Some p).
    { destruct (nth_error (snd (schedule (prefix_of sched n) m)) k) as [p|] eqn:E; [eauto|]. exfalso. apply nth_error_None in E.
      assert (Y : forall is m, List.length (snd (schedule is m)) = List.length (snd m)).
      { assert (U : forall A (x : A) j l, List.length (update j x l) = List.length l) by (intros A x j l; revert j; induction l; intros []; cbn; auto).
        induction is as [|j is IHis]; intros m1; [reflexivity|]. cbn [schedule fold_left]. unfold schedule in IHis. rewrite IHis. unfold pick.
        destruct (nth_error (snd m1) j); [|reflexivity]. destruct (access _ _). cbn [snd]. apply U. }
      rewrite Y in E. unfold m, begin_calls in E. cbn [snd] in E. rewrite map_length in E. lia. }
    destruct X as (p & X). destruct (finishes sched k m (F k L) p n X) as (n' & a & D).
    exists (n + n'). intros i Hi. destruct (Nat.eq_dec i k) as [->|].
    - exists a. rewrite Nat.add_comm. now apply done_stays.
    - destruct (H i) as (a' & D'); [lia|]. exists a'. now apply done_stays. }
  destruct (G (List.length calls) (le_n _)) as (n & H). exists n. intros i Hi. destruct (H i Hi) as (a & D). exists a.
  unfold answer_of. fold (prefix_of sched n). now rewrite D.
Qed.
Print Assumptions C48_all_finish.

(** *** The refutation *)
Lemma parse_first opts data :
  k_entry (config_of opts) = "init"%string -> (k_max (config_of opts) = 0 \/ 4 <= k_max (config_of opts))%N ->
  exists k, pparse opts data = Put [] k.
Proof.
  intros N M. unfold pparse. set (k := config_of opts) in *. set (o := settings_of k). rewrite N.
  assert (L : forall s n, (s_cnt s = n)%N -> (n <= 4)%N -> over_limit o s = false).
  { intros s n E H. unfold o, over_limit, settings_of. cbn. destruct (N.eqb_spec (k_max k) 0); [reflexivity|]. cbn. rewrite E. apply N.ltb_ge. lia. }
  destruct init_shape as (a & x & G & _). change (find_rule "init" gen_grammar) with (Some gen_init). cbn [find_rule]. rewrite G.
  unfold parse_fuel. change (S (List.length data) * fuel_factor) with (S (S (S (597 + List.length data * fuel_factor)))).
  generalize (597 + List.length data * fuel_factor). intros n. set (s0 := init_st o [] data).
  assert (Z : s_cnt s0 = 0%N) by (unfold s0, init_st, check_rune; destruct (_ && _); reflexivity). clearbody s0.
  cbn [peval]. set (f := pstep o gen_grammar (peval o gen_grammar n) n).
  unfold pstep at 1. rewrite (L (tick s0) 1%N) by (unfold tick; cbn [s_cnt set_cnt]; rewrite ?Z, ?Z2; first [reflexivity | lia]).
  unfold pstep at 1. rewrite (L (tick (tick s0)) 2%N) by (unfold tick; cbn [s_cnt set_cnt]; rewrite ?Z, ?Z2; first [reflexivity | lia]). cbn [pseq_loop].
  unfold f at 1, pstep at 1. rewrite (L (tick (tick (tick s0))) 3%N) by (unfold tick; cbn [s_cnt set_cnt]; rewrite ?Z, ?Z2; first [reflexivity | lia]). unfold step. rewrite (L (tick (tick (tick s0))) 3%N) by (unfold tick; cbn [s_cnt set_cnt]; rewrite ?Z, ?Z2; first [reflexivity | lia]). cbn [bindp].
  unfold f at 1, pstep at 1. set (s2 := run_state _ _ _).
  assert (Z2 : s_cnt s2 = 3%N). { unfold s2, run_state, tick. cbn [s_warns set_cnt]. destruct (s_warns s0); cbn [s_cnt set_cnt set_warns]; now rewrite Z. }
  rewrite (L (tick s2) 4%N) by (unfold tick; cbn [s_cnt set_cnt]; rewrite ?Z, ?Z2; first [reflexivity | lia]). cbn. eauto.
Qed.
(** The text of a valid configuration, and what call 0 makes of it when a call of
    Parse of any other text begins after the fourth access of call 0. *)
Definition valid : bytes := b "filter { if [a] == 1 { } }".
Theorem C48_refuted : exists sched c, fst (parse [] [] valid) = Returned (VConfig c) [] /\
  forall opts data ff, k_entry (config_of opts) = "init"%string -> (k_max (config_of opts) = 0 \/ 4 <= k_max (config_of opts))%N ->
  exists p rule, answer_of 0 (schedule sched (begin_calls ff [CallParse [] valid; CallParse opts data]))
    = Some (Parsed (Returned VNil [PError p (Some rule) index_msg])).
Proof.
  exists (repeat 0 4 ++ [1] ++ [0]). eexists. split; [vm_compute; reflexivity|].
  intros opts data ff N M. destruct (parse_first opts data N M) as (k & K). unfold begin_calls. cbn [map start]. rewrite K.
  eexists _, _. vm_compute. reflexivity.
Qed.
Print Assumptions C48_refuted.

(** Also GetFarthestFailure: it panics if a call of Parse begins between its
    first two accesses. *)
Theorem C48_getter_refuted : forall opts data f ff,
  k_entry (config_of opts) = "init"%string -> (k_max (config_of opts) = 0 \/ 4 <= k_max (config_of opts))%N ->
  answer_of 0 (schedule [0; 1; 0] (begin_calls (f :: ff) [CallFarthest; CallParse opts data])) = Some (Farthest None).
Proof. intros opts data f ff N M. destruct (parse_first opts data N M) as (k & K). unfold begin_calls. cbn [map start]. rewrite K. reflexivity. Qed.
Print Assumptions C48_getter_refuted.

(** ... and the record that GetFarthestFailure prints can mix the failures of two
    texts: here both calls succeed, and the record holds two positions. *)
Theorem C48_record_refuted : exists d1 d2 sched c1 c2 f1 f2,
  fst (parse [] [] d1) = Returned (VConfig c1) [] /\ fst (parse [] [] d2) = Returned (VConfig c2) [] /\
  answer_of 0 (schedule sched (begin_calls [] [CallParse [] d1; CallParse [] d2])) = Some (Parsed (Returned (VConfig c1) [])) /\
  answer_of 1 (schedule sched (begin_calls [] [CallParse [] d1; CallParse [] d2])) = Some (Parsed (Returned (VConfig c2) [])) /\
  fst (schedule sched (begin_calls [] [CallParse [] d1; CallParse [] d2])) = [f1; f2] /\ f_off f1 <> f_off f2.
Proof.
  exists valid, (b "filter { if [abc] == 1 { } }"), (repeat 1 1 ++ repeat 0 6 ++ repeat 1 60 ++ repeat 0 60).
  eexists _, _, _, _. split; [vm_compute; reflexivity|]. split; [vm_compute; reflexivity|]. split; [vm_compute; reflexivity|].
  split; [vm_compute; reflexivity|]. split; [vm_compute; reflexivity|]. vm_compute. lia.
Qed.
Print Assumptions C48_record_refuted.

(** Cases: two calls whose accesses alternate, the second one begins first. *)
Example C48_case : exists c,
  answer_of 0 (schedule ([1] ++ flat_map (fun _ => [0; 1]) (seq 0 60)) (begin_calls [] [CallParse [] valid; CallParse [] (b "input { }")]))
    = Some (Parsed (Returned (VConfig c) [])).
Proof. eexists. vm_compute. reflexivity. Qed.
Example C48_case_fair : forall i, i < 2 -> forall t, exists t', t <= t' /\ t' mod 2 = i.
Proof.
  intros i H t. exists (2 * t + i). split; [lia|]. rewrite Nat.add_comm, Nat.mul_comm, Nat.mod_add by lia. now apply Nat.mod_small.
Qed.
