(** Calls of Parse and the memory that they reuse and share: the maps of the pool, the arrays of
    the warnings, the slots of the label stack (Store.v). *)
From Coq Require Import List NArith Bool String Arith Lia.
From Verif Require Import Bytes Utf8 F64 Ast Peg Actions Engine Parser GrammarGen Run HistFacts Conc ConcFacts PropsConc Store StoreFacts PropsEngine.
Import ListNotations.

(** ** C66: the memory that calls reuse is not observable *)

(** Whatever is left in the pool when the calls begin, whatever maps the pool gives out, however
    the accesses of the calls are interleaved and however large the arrays and slots are that Go's
    run time makes: the answers of the calls, and farthestFailure, are those of the same calls
    without any reuse (Conc.v, C48). *)
Theorem C66_any_run : forall spare m calls x, good_mem m -> hmoves (hbegin spare m calls) x ->
  exists sched, fst (schedule sched (begin_calls (m_ff m) calls)) = m_ff (fst x) /\
    forall i a given, hanswer_of i x = Some (a, given) -> answer_of i (schedule sched (begin_calls (m_ff m) calls)) = Some a.
Proof.
  intros spare m calls x GM H. destruct (moves_follow _ _ _ _ GM H) as (sched & EF & L1 & L2 & Rs & S & F). exists sched. split; [exact EF|].
  intros i a gs E. unfold hanswer_of in E. destruct (nth_error (snd x) i) as [p|] eqn:EP; [|discriminate]. destruct p as [r| | | | | | | | | |]; try discriminate. injection E as ->.
  destruct (nth_error calls i) as [c|] eqn:EC.
  - destruct (F i c EC) as (p & q & E1 & E2 & X). assert (p = HDone (a, gs)) by congruence. subst p. cbn [ref] in X. destruct X as (y & -> & (Y & _)).
    unfold answer_of. rewrite E2. cbn in Y. now subst y.
  - exfalso. apply nth_error_None in EC. assert (nth_error (snd x) i = None) by (apply nth_error_None; lia). congruence.
Qed.
Print Assumptions C66_any_run.

(** A call on its own returns what [parse] says, with any memory that earlier calls left behind. *)
Lemma alone_pick i m : nth_error (snd m) 0 <> None -> List.length (snd m) = 1 -> i <> 0 -> pick i m = m.
Proof. intros _ L N. unfold pick. destruct (nth_error (snd m) i) eqn:E; [|reflexivity]. exfalso. assert (i < List.length (snd m)) by (apply nth_error_Some; congruence). lia. Qed.
Lemma pick_length i m : List.length (snd (pick i m)) = List.length (snd m).
Proof. unfold pick. destruct (nth_error (snd m) i); [|reflexivity]. destruct (access _ _). cbn. apply update_length. Qed.
Lemma alone_sched : forall sched m, List.length (snd m) = 1 -> exists k, schedule sched m = schedule (repeat 0 k) m.
Proof.
  induction sched as [|i sched IH]; intros m L; [exists 0; reflexivity|]. cbn [schedule fold_left]. destruct (IH (pick i m)) as (k & E); [now rewrite pick_length|].
  unfold schedule in E. rewrite E. destruct (Nat.eq_dec i 0) as [->|N]; [exists (S k); reflexivity|]. exists k. unfold schedule. f_equal. apply alone_pick; auto.
  destruct (snd m); [discriminate L|discriminate].
Qed.
Lemma pick_stays a m n : nth_error (snd m) 0 = Some (Done a) -> schedule (repeat 0 n) m = m.
Proof.
  intros E. induction n as [|n IH]; [reflexivity|]. cbn [repeat schedule fold_left]. assert (P : pick 0 m = m). { unfold pick. rewrite E. cbn [access]. rewrite update_id by exact E. destruct m; reflexivity. }
  rewrite P. exact IH.
Qed.
Theorem C66_alone : forall spare m opts data x a given, good_mem m -> hmoves (hbegin spare m [CallParse opts data]) x ->
  hanswer_of 0 x = Some (a, given) ->
  a = Parsed (fst (parse opts (m_ff m) data)) /\ m_ff (fst x) = snd (parse opts (m_ff m) data).
Proof.
  intros spare m opts data x a gs GM H E. destruct (C66_any_run _ _ _ _ GM H) as (sched & F & A). specialize (A 0 a gs E).
  set (m0 := begin_calls (m_ff m) [CallParse opts data]) in *. destruct (alone_sched sched m0 eq_refl) as (k & K). rewrite K in F, A.
  destruct (C48_one_at_a_time opts data 0 m0 eq_refl) as (k' & K'). specialize (K' (k + k') ltac:(lia)).
  assert (X : schedule (repeat 0 (k + k')) m0 = schedule (repeat 0 k) m0).
  { rewrite repeat_app, schedule_app. unfold answer_of in A. destruct (nth_error (snd (schedule (repeat 0 k) m0)) 0) as [p|] eqn:EP; [|discriminate]. destruct p; try discriminate. injection A as ->.
    eapply pick_stays. exact EP. }
  rewrite X in K'. rewrite K' in F, A. cbn [fst snd] in F. split; [|symmetry; exact F]. cbn in A. congruence.
Qed.
Print Assumptions C66_alone.

(** The memory that calls leave is memory that calls can begin with. *)
Theorem C66_memory : forall spare m calls x, good_mem m -> hmoves (hbegin spare m calls) x -> good_mem (fst x).
Proof. intros spare m calls x GM H. destruct (moves_follow _ _ _ _ GM H) as (sched & EF & L1 & L2 & Rs & S & F). split; apply S. Qed.
Print Assumptions C66_memory.

(** No call ever uses a map or an array that does not exist: a call has finished or can go on. *)
Theorem C66_no_fault : forall spare m calls x i p, good_mem m -> hmoves (hbegin spare m calls) x -> nth_error (snd x) i = Some p ->
  (exists r, p = HDone r) \/ exists m' p', haccess (fst x) p m' p'.
Proof.
  intros spare m calls x i p GM H E. destruct (moves_follow _ _ _ _ GM H) as (sched & EF & L1 & L2 & Rs & S & F).
  destruct (nth_error calls i) as [c|] eqn:EC; [|exfalso; apply nth_error_None in EC; assert (nth_error (snd x) i = None) by (apply nth_error_None; lia); congruence].
  destruct (F i c EC) as (p' & q & E1 & E2 & X). assert (p' = p) by congruence. subst p'. destruct p; cbn [ref] in X; [left; eauto|right..].
  - eexists _, _. constructor.
  - eexists _, _. constructor.
  - eexists _, _. constructor.
  - eexists _, _. apply acc_get_new.
  - eexists _, _. constructor.
  - destruct X as (v & X & _). apply (sh_agree _ _ S i) in X. eexists _, _. constructor. exact X.
  - destruct X as (X & _). destruct (r_maps (Rs i) a) as [v0|] eqn:E0; [|congruence]. apply (sh_agree _ _ S i) in E0. eexists _, _. constructor. apply nth_error_Some. congruence.
  - eexists _, _. constructor. apply le_n.
  - destruct X as (v & X & _). apply (sh_agree _ _ S i) in X. eexists _, _. constructor. exact X.
  - destruct X as (v & X & L & _). apply (sh_agree _ _ S i) in X. eexists _, _. econstructor; eassumption.
Qed.
Print Assumptions C66_no_fault.

(** Every call can finish from wherever the run has got to. *)
Lemma moves_trans x y z : hmoves x y -> hmoves y z -> hmoves x z.
Proof. intros H G. induction G; [exact H|]. eapply moves_step; [apply IHG; exact H|assumption]. Qed.
Lemma finish_one spare m calls i : good_mem m -> forall p x, hmoves (hbegin spare m calls) x -> nth_error (snd x) i = Some p ->
  exists x' r, hmoves x x' /\ snd x' = update i (HDone r) (snd x).
Proof.
  intros GM. assert (STEP : forall p x, hmoves (hbegin spare m calls) x -> nth_error (snd x) i = Some p ->
    (forall m' p', haccess (fst x) p m' p' -> exists x' r, hmoves (m', update i p' (snd x)) x' /\ snd x' = update i (HDone r) (update i p' (snd x))) ->
    (exists r, p = HDone r) \/ exists x' r, hmoves x x' /\ snd x' = update i (HDone r) (snd x)).
  { intros p x H E IH. destruct (C66_no_fault _ _ _ _ _ _ GM H E) as [D|(m' & p' & A)]; [now left|]. right.
    destruct (IH m' p' A) as (x' & r & M & EX). exists x', r. split; [|rewrite EX; apply update_update]. eapply moves_trans; [|exact M]. eapply moves_step; [apply moves_refl|].
    destruct x as [mx ps]. econstructor; eassumption. }
  assert (GO : forall x m' p p', hmoves (hbegin spare m calls) x -> nth_error (snd x) i = Some p -> haccess (fst x) p m' p' ->
    hmoves (hbegin spare m calls) (m', update i p' (snd x)) /\ nth_error (snd (m', update i p' (snd x))) i = Some p').
  { intros x m' p p' H E A. split; [eapply moves_step; [exact H|]; destruct x as [mx ps]; econstructor; eassumption|]. cbn. rewrite nth_update, Nat.eqb_refl, E. reflexivity. }
  induction p as [r|k IH|l k IH|k IH|k IH|a k IH|a k IH|a v k IH|n k IH|r k IH|r j l k IH]; intros x H E;
    try (destruct (STEP _ x H E) as [(r' & D)|D]; [|discriminate D|exact D]; intros m' p' A;
         destruct (GO x m' _ p' H E A) as (G1 & G2); inversion A; subst; first [exact (IH _ _ G1 G2)|exact (IH _ G1 G2)]).
    exists x, r. split; [apply moves_refl|]. now rewrite update_id.
Qed.
Theorem C66_finish : forall spare m calls x, good_mem m -> hmoves (hbegin spare m calls) x ->
  exists x', hmoves x x' /\ forall i, i < List.length calls -> exists r, hanswer_of i x' = Some r.
Proof.
  intros spare m calls x GM H.
  assert (LEN : forall x, hmoves (hbegin spare m calls) x -> List.length (snd x) = List.length calls).
  { intros y Hy. destruct (moves_follow _ _ _ _ GM Hy) as (sched & EF & L1 & _). exact L1. }
  assert (X : forall k, k <= List.length calls -> exists x', hmoves x x' /\ forall i, i < k -> exists r, hanswer_of i x' = Some r).
  { induction k as [|k IH]; intros L; [exists x; split; [apply moves_refl|intros i Hi; lia]|]. destruct IH as (x1 & M1 & D1); [lia|].
    assert (H1 : hmoves (hbegin spare m calls) x1) by (eapply moves_trans; eassumption).
    destruct (nth_error (snd x1) k) as [p|] eqn:EP; [|apply nth_error_None in EP; rewrite (LEN _ H1) in EP; lia].
    destruct (finish_one _ _ _ _ GM p x1 H1 EP) as (x2 & r & M2 & E2). exists x2. split; [eapply moves_trans; eassumption|]. intros i Hi. unfold hanswer_of. rewrite E2, nth_update.
    destruct (Nat.eqb_spec k i) as [->|NE]; [rewrite EP; eauto|]. apply D1. lia. }
  exact (X _ (le_n _)).
Qed.
Print Assumptions C66_finish.

(** ... and no run goes on for ever. *)
Definition part {A} (p' p : hprog A) : Prop := exists m m', haccess m p m' p'.
Lemma part_wf {A} (p : hprog A) : Acc part p.
Proof.
  induction p as [r|k IH|l k IH|k IH|k IH|a k IH|a k IH|a v k IH|n k IH|r k IH|r j l k IH]; constructor; intros p' (m & m' & H); inversion H; subst; auto.
Qed.
Definition parts (l' l : list (hprog (answer * list smap))) : Prop := exists i p p', nth_error l i = Some p /\ part p' p /\ l' = update i p' l.
Lemma parts_wf l : Acc parts l.
Proof.
  induction l as [|p l IH]; [constructor; intros l' ([|i] & p & p' & E & _); discriminate E|].
  revert l IH. induction (part_wf p) as [p _ IHp]. intros l HL. pose proof HL as HL0. induction HL as [l _ IHl]. constructor. intros l' (i & q & q' & E & P & ->).
  destruct i as [|i]; cbn in *.
  - injection E as ->. apply IHp; [exact P|exact HL0].
  - assert (X : parts (update i q' l) l) by (exists i, q, q'; auto). apply IHl; [exact X|]. now apply HL0.
Qed.
Lemma move_wf (x : hmachine) : Acc (fun y x => hmove x y) x.
Proof.
  destruct x as [m ps]. revert m. induction (parts_wf ps) as [ps _ IH]. intros m. remember (List.length (m_pool m)) as n eqn:En. revert m En.
  induction n as [n IHn] using lt_wf_ind. intros m ->. constructor. intros y H. inversion H; subst.
  - apply IH. exists i, p, p'. split; [assumption|]. split; [|reflexivity]. exists m, m'. assumption.
  - eapply IHn; [|reflexivity]. cbn. match goal with X : m_pool m = _ |- _ => rewrite X end. rewrite !app_length. cbn. lia.
Qed.
Theorem C66_ends : forall run : nat -> hmachine, ~ (forall n, hmove (run n) (run (S n))).
Proof.
  intros run H. assert (X : forall x, Acc (fun y x => hmove x y) x -> forall n, run n <> x).
  { intros x A. induction A as [x _ IH]. intros n E. subst x. exact (IH (run (S n)) (H n) (S n) eq_refl). }
  exact (X _ (move_wf (run 0)) 0 eq_refl).
Qed.
Print Assumptions C66_ends.

(** The slice of warnings that the caller gets is never written again: at any later time, whatever
    other calls have done, the warnings that it reads there are those of the configuration. *)
Lemma done_stays i r x x' : hmoves x x' -> nth_error (snd x) i = Some (HDone r) -> nth_error (snd x') i = Some (HDone r).
Proof.
  intros H E. induction H as [x|x y z H IH M]; [exact E|]. specialize (IH E). inversion M; subst; cbn [snd] in *; [|exact IH].
  rewrite nth_update. destruct (Nat.eqb_spec i0 i) as [->|NE]; [|exact IH]. rewrite IH in *. assert (p = HDone r) by congruence. subst p. match goal with A : haccess _ _ _ _ |- _ => inversion A end.
Qed.
Theorem C66_warnings : forall spare m calls x i opts data c errs given, good_mem m -> hmoves (hbegin spare m calls) x ->
  nth_error calls i = Some (CallParse opts data) -> k_entry (config_of opts) = "init"%string ->
  hanswer_of i x = Some (Parsed (Returned (VConfig c) errs), given) ->
  exists slice rest, given = slice :: rest /\ forall x', hmoves x x' -> warnings_now (fst x') slice = Some (cf_warnings c).
Proof.
  intros spare m calls x i opts data c errs gs GM H EC EI E.
  assert (ED : nth_error (snd x) i = Some (HDone (Parsed (Returned (VConfig c) errs), gs))).
  { unfold hanswer_of in E. destruct (nth_error (snd x) i) as [p|]; [|discriminate]. destruct p; try discriminate. congruence. }
  assert (G : forall x', hmoves x x' -> exists sm w rest, gs = sm :: rest /\ cf_warnings c = map warning_text (texts_of w) /\ warnings_now (fst x') sm = Some (map warning_text (texts_of w))).
  { intros x' M. assert (H' : hmoves (hbegin spare m calls) x') by (eapply moves_trans; eassumption).
    destruct (moves_follow _ _ _ _ GM H') as (sched & EF & L1 & L2 & Rs & S & F). destruct (F i _ EC) as (p & q & E1 & E2 & X).
    pose proof (done_stays i _ _ _ M ED) as ED'. assert (p = HDone (Parsed (Returned (VConfig c) errs), gs)) by congruence. subst p. cbn [ref] in X. destruct X as (y & -> & (Y1 & Y2)).
    cbn [fst snd] in Y1, Y2. destruct (Y2 EI c errs (eq_sym Y1)) as (sm & w & rest & G1 & G2 & G3). exists sm, w, rest. split; [exact G1|]. split; [exact G3|].
    destruct sm as [[r n]|], w as [ws|]; cbn in G2; try contradiction; [|reflexivity]. destruct G2 as (l & El & Ln & Fn). apply (sh_agree _ _ S i) in El. cbn. rewrite El.
    apply Nat.leb_le in Ln. rewrite Ln, Fn. reflexivity. }
  destruct (G x (moves_refl x)) as (sm & w & rest & -> & G1 & _). exists sm, rest. split; [reflexivity|]. intros x' M. destruct (G x' M) as (sm' & w' & rest' & E' & G1' & G2').
  injection E' as <- <-. rewrite G2'. congruence.
Qed.
Print Assumptions C66_warnings.

(** *** Cases *)
(** A run in which the pool gives out its last map whenever it has one, and arrays have [room]
    elements more than needed. *)
Fixpoint turns (room : nat) (p : hprog (answer * list smap)) (n : nat) (m : mem) {struct n} : mem * hprog (answer * list smap) :=
  match n with
  | 0 => (m, p)
  | S n' =>
      match p with
      | HDone r => (m, HDone r)
      | HFGet k => turns room (k (m_ff m)) n' m
      | HFPut l k => turns room k n' (Mem l (m_maps m) (m_arrs m) (m_pool m))
      | HNew k => turns room (k (List.length (m_maps m))) n' (Mem (m_ff m) (m_maps m ++ [None]) (m_arrs m) (m_pool m))
      | HGet k =>
          match m_pool m with
          | [] => turns room (k (List.length (m_maps m))) n' (Mem (m_ff m) (m_maps m ++ [None]) (m_arrs m) [])
          | a :: l => turns room (k a) n' (Mem (m_ff m) (m_maps m) (m_arrs m) l)
          end
      | HPut a k => turns room k n' (Mem (m_ff m) (m_maps m) (m_arrs m) (a :: m_pool m))
      | HLoad a k => match nth_error (m_maps m) a with Some v => turns room (k v) n' m | None => (m, p) end
      | HStore a v k => if a <? List.length (m_maps m) then turns room k n' (Mem (m_ff m) (update a v (m_maps m)) (m_arrs m) (m_pool m)) else (m, p)
      | HMake c k => turns room (k (List.length (m_arrs m))) n' (Mem (m_ff m) (m_maps m) (m_arrs m ++ [repeat zero_pos (c + room)]) (m_pool m))
      | HRead r k => match nth_error (m_arrs m) r with Some l => turns room (k l) n' m | None => (m, p) end
      | HWrite r i l k =>
          match nth_error (m_arrs m) r with
          | Some old => if i + List.length l <=? List.length old
                        then turns room k n' (Mem (m_ff m) (m_maps m) (update r (write_at i l old) (m_arrs m)) (m_pool m)) else (m, p)
          | None => (m, p)
          end
      end
  end.
Lemma turns_moves room i n : forall p m ps, nth_error ps i = Some p ->
  hmoves (m, ps) (fst (turns room p n m), update i (snd (turns room p n m)) ps).
Proof.
  induction n as [|n IH]; intros p m ps E; cbn [turns].
  - change (hmoves (m, ps) (m, update i p ps)). rewrite update_id by exact E. apply moves_refl.
  - assert (G : forall m' p', haccess m p m' p' -> hmoves (m, ps) (fst (turns room p' n m'), update i (snd (turns room p' n m')) ps)).
    { intros m' p' A. eapply moves_trans; [eapply moves_step; [apply moves_refl|econstructor; [exact E|exact A]]|].
      specialize (IH p' m' (update i p' ps)). rewrite update_update in IH. apply IH. rewrite nth_update, Nat.eqb_refl, E. reflexivity. }
    assert (Z : hmoves (m, ps) (fst (m, p), update i (snd (m, p)) ps)) by (cbn [fst snd]; rewrite update_id by exact E; apply moves_refl).
    destruct p as [r|k|l k|k|k|a k|a k|a v k|c k|r k|r j l k]; try (apply G; constructor; fail).
    + exact Z.
    + destruct (m_pool m) as [|a l] eqn:EP; apply G; [rewrite <- EP; apply acc_get_new|]. apply (acc_get m k [] a l EP).
    + destruct (nth_error (m_maps m) a) eqn:EN; [|exact Z]. apply G. now constructor.
    + destruct (Nat.ltb_spec a (List.length (m_maps m))); [|exact Z]. apply G. now constructor.
    + apply G. constructor. lia.
    + destruct (nth_error (m_arrs m) r) eqn:EN; [|exact Z]. apply G. now constructor.
    + destruct (nth_error (m_arrs m) r) as [old|] eqn:EN; [|exact Z]. destruct (Nat.leb_spec (j + List.length l) (List.length old)); [|exact Z]. apply G. now constructor.
Qed.

Definition store_opts : list popt := [OptExceptionalCommentsWarning true].
Definition store_text : bytes := b "filter{if[a]#c" ++ [NL] ++ b "==1{}}".
Definition no_mem : mem := Mem [] [] [] [].
Example C66_case_begin : good_mem no_mem.
Proof. split; [constructor|intros a []]. Qed.
(** Two calls: 300 accesses of the first, then the second to its end, then the first to its end.
    Both calls get what they get alone, the second call has used maps that the first one returned (there are
    far fewer maps than cloneState calls), and the warnings of both can be read in the memory. *)
Definition store_run : mem * hprog (answer * list smap) * hprog (answer * list smap) :=
  let p1 := hstart (fun n => n) (CallParse store_opts store_text) in
  let p2 := hstart (fun n => n) (CallParse store_opts (b "input{}filter{if#c" ++ [NL] ++ b "[a]{}}")) in
  let '(m, p1) := turns 2 p1 300 no_mem in
  let '(m, p2) := turns 2 p2 (100 * 200) m in
  let '(m, p1) := turns 2 p1 (100 * 200) m in (m, p1, p2).
Definition finished (p : hprog (answer * list smap)) : option (result * list smap) :=
  match p with HDone (Parsed r, gs) => Some (r, gs) | _ => None end.
Definition store_seen : option (list bytes) * option (list bytes) * bool * bool * nat * nat :=
  let '(m, p1, p2) := store_run in
  let see p := match finished p with Some (_, sm :: _) => warnings_now m sm | _ => None end in
  let same p data := match finished p with
                     | Some (Returned (VConfig c) [], _) =>
                         match parse store_opts [] data with (Returned (VConfig c') [], _) => if list_eq_dec (list_eq_dec N.eq_dec) (cf_warnings c) (cf_warnings c') then true else false | _ => false end
                     | _ => false end in
  (see p1, see p2, same p1 store_text, same p2 (b "input{}filter{if#c" ++ [NL] ++ b "[a]{}}"), List.length (m_maps m), List.length (m_pool m)).
Example C66_case : store_seen = (Some [b "exceptional comment at 1:13 [12]"], Some [b "exceptional comment at 1:17 [16]"], true, true, 76, 4).
Proof. vm_compute. reflexivity. Qed.
(** it is a run of the machine *)
Example C66_case_run : let '(m, p1, p2) := store_run in
  hmoves (hbegin (fun n => n) no_mem [CallParse store_opts store_text; CallParse store_opts (b "input{}filter{if#c" ++ [NL] ++ b "[a]{}}")]) (m, [p1; p2]).
Proof.
  unfold store_run, hbegin. cbn [map]. set (q1 := hstart _ (CallParse store_opts store_text)). set (q2 := hstart _ _).
  generalize (100 * 200). intros n. generalize 300. intros n0. clearbody q1 q2.
  pose proof (turns_moves 2 0 n0 q1 no_mem [q1; q2] eq_refl) as A. destruct (turns 2 q1 n0 no_mem) as [m1 q1']. cbn [fst snd update] in A.
  pose proof (turns_moves 2 1 n q2 m1 [q1'; q2] eq_refl) as B. destruct (turns 2 q2 n m1) as [m2 q2']. cbn [fst snd update] in B.
  pose proof (turns_moves 2 0 n q1' m2 [q1'; q2'] eq_refl) as C. destruct (turns 2 q1' n m2) as [m3 q1'']. cbn [fst snd update] in C.
  eapply moves_trans; [exact A|]. eapply moves_trans; [exact B|exact C].
Qed.
