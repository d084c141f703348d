(** Property C75: what follows an error does not matter. *)
From Coq Require Import List NArith ZArith Bool String Arith Lia.
From Verif Require Import Bytes Utf8 F64 Ast Peg Actions Engine Parser GrammarGen QuoteFacts PosFacts Run EngineFacts
  Termination RunInv HistFacts ErrFacts Locality.
Import ListNotations.

(** logstash_config.go:12628-12647: the only error with an empty rule stack, but for an
    encoding error at the first byte, is the error that says where the farthest failure
    was and what was expected there. *)
Definition no_match_error (e : perror) : Prop := e_rule e = None /\ e_msg e <> MText (b "invalid encoding").

(** If Parse reports that nothing matched at the offset [k], it does the same for every
    other text that has the same bytes before [k], and the next 32: same position, same
    message, same record of failures.  The other text may be longer or shorter, and may
    have anything after these bytes. *)
Theorem C75_prefix : forall opts ff data data' e ff',
  parse opts ff data = (Returned VNil [e], ff') -> no_match_error e ->
  firstn (p_off (e_pos e) + 32) data' = firstn (p_off (e_pos e) + 32) data ->
  parse opts ff data' = (Returned VNil [e], ff').
Proof.
  intros opts ff data data' e ff' P [Hr Hm] HK. destruct (find_rule (k_entry (config_of opts)) gen_grammar) as [x|] eqn:F.
  2: { pose proof (parse_run opts ff data) as A. pose proof (parse_run opts ff data') as A'. rewrite F in A, A'. now rewrite A', <- A. }
  destruct (parse_final opts ff data x F) as (r & R & E & I). rewrite E in P. set (o := settings_of (config_of opts)) in *.
  assert (S : exists en s, r = OFail en s /\ s_errs s = [] /\ s_mfpos s = e_pos e).
  { destruct I as [I _]. assert (N : forall s, inv gen_grammar data (fun f => In f ff) s -> ~ In e (s_errs s)).
    { intros s [A _ _ _] Hf. rewrite Forall_forall in A. destruct (A e Hf) as (_ & _ & A3). auto. }
    destruct r as [v1 en s|en s|m y s|]; cbn in P, I; try discriminate P.
    - injection P as _ Q _. exfalso. apply (N s I). rewrite Q. now left.
    - exists en, s. split; [reflexivity|]. injection P as P _. destruct (s_errs s) as [|e0 l] eqn:Es; [split; [reflexivity|]; injection P as <-; reflexivity|].
      exfalso. apply (N s I). rewrite Es, P. now left.
    - destruct (k_recover _); [|discriminate P]. injection P as P _. exfalso. destruct (s_errs s) as [|e0 l] eqn:Es; [injection P as <-; discriminate Hr|].
      injection P as _ P. now destruct l. }
  destruct S as (en & s & -> & Es & Ep).
  set (K := p_off (e_pos e) + 32) in *.
  assert (R' : ev o gen_grammar (k_entry (config_of opts)) x [] (trs data' (init_st o ff data)) (tro data' (OFail en s))).
  { apply (proj1 (local_all o gen_grammar data data' K gen_lits_ok gen_local (eq_sym HK))); auto.
    - exact (forallb_rule _ _ gen_lits_ok F).
    - exact (proj2 (rule_local _ gen_local _ _ F)).
    - unfold init_st, check_rune. destruct (_ && _); reflexivity.
    - unfold init_st, check_rune. destruct (_ && _); constructor.
    - cbn. rewrite Ep. unfold K, ahead. lia. }
  rewrite (tr_init o data data' K (eq_sym HK)) in R' by (unfold K, ahead; lia).
  pose proof (parse_run opts ff data') as A. rewrite F in A. destruct A as (r2 & R2 & ->).
  rewrite (ev_fun _ _ _ _ _ _ _ _ R2 R'). rewrite <- P. reflexivity.
Qed.
Print Assumptions C75_prefix.

(** In particular whatever is written after the place of the error and the next 32 bytes. *)
Theorem C75_rest : forall opts ff before rest rest' e ff',
  parse opts ff (before ++ rest) = (Returned VNil [e], ff') -> no_match_error e ->
  p_off (e_pos e) + 32 <= List.length before ->
  parse opts ff (before ++ rest') = (Returned VNil [e], ff').
Proof.
  intros opts ff before rest rest' e ff' P N L. eapply C75_prefix; [exact P|exact N|]. now rewrite !firstn_app, !(proj2 (Nat.sub_0_le _ _)) by exact L.
Qed.
Print Assumptions C75_rest.

(** An accepted text shares at most the bytes before the error, and the next 31, with a
    text that is not accepted: the farthest failure of a rejected text is not reported
    far behind the first byte that has to change. *)
Theorem C75_first_change : forall opts ff data data' e ff' v ff2,
  parse opts ff data = (Returned VNil [e], ff') -> no_match_error e ->
  parse opts ff data' = (Returned v [], ff2) ->
  exists i, i < p_off (e_pos e) + 32 /\ nth_error data i <> nth_error data' i.
Proof.
  intros opts ff data data' e ff' v ff2 P N P'. set (K := p_off (e_pos e) + 32).
  assert (H : firstn K data' <> firstn K data). { intros H. rewrite (C75_prefix _ _ _ _ _ _ P N H) in P'. discriminate P'. }
  clearbody K. clear - H. revert data data' H. induction K as [|K IH]; intros d d' H; [now elim H|].
  destruct d as [|c d], d' as [|c' d']; [now elim H| | |].
  - exists 0. split; [lia|discriminate].
  - exists 0. split; [lia|discriminate].
  - destruct (N.eq_dec c c') as [<-|Nc]; [|exists 0; split; [lia|cbn; congruence]].
    destruct (IH d d') as (i & L & Hi); [intros E; apply H; cbn; now rewrite E|]. exists (S i). split; [lia|exact Hi].
Qed.
Print Assumptions C75_first_change.

(** A truncated file is reported at its end: if an accepted text is cut off and nothing
    matches then, the place of the error is the end or one of the last 31 bytes. *)
Theorem C75_truncated : forall opts ff before rest e ff' v ff2,
  parse opts ff (before ++ rest) = (Returned v [], ff') ->
  parse opts ff before = (Returned VNil [e], ff2) -> no_match_error e ->
  List.length before < p_off (e_pos e) + 32.
Proof.
  intros opts ff before rest e ff' v ff2 P P' N. destruct (Nat.lt_ge_cases (List.length before) (p_off (e_pos e) + 32)) as [H|H]; [exact H|exfalso].
  pose proof (C75_rest opts ff before [] rest e ff2) as C. rewrite app_nil_r in C. rewrite (C P' N H) in P. discriminate P.
Qed.
Print Assumptions C75_truncated.

(** The hypotheses are met: the second section has a wrong name; after the error and 32
    more bytes stands anything, also bytes that are not UTF-8. *)
Definition local_text : bytes := b "input { aa { bb => 5 } } filtr { mutate { id => ""x"" } } output { aa { } }".
Definition local_before : bytes := firstn 57 local_text.
Example C75_case : exists e ff', parse [] [] local_text = (Returned VNil [e], ff') /\ no_match_error e /\ p_off (e_pos e) = 25 /\ List.length local_before = 57 /\
  parse [] [] (local_before ++ [255; 254; 123; 34]%N) = (Returned VNil [e], ff').
Proof.
  destruct (parse [] [] local_text) as [r ff'] eqn:E. vm_compute in E. injection E as <- <-. eexists _, _. split; [reflexivity|]. split; [split; [reflexivity|discriminate]|]. split; [reflexivity|]. split; [reflexivity|]. vm_compute. reflexivity.
Qed.
(** Some bytes after the place of the error do matter: the parser has looked at them. *)
Example C75_needs_ahead : exists e ff', parse [] [] (b "inpux { }") = (Returned VNil [e], ff') /\ no_match_error e /\ p_off (e_pos e) = 0 /\
  match fst (parse [] [] (b "input { }")) with Returned (VConfig _) [] => True | _ => False end.
Proof.
  destruct (parse [] [] (b "inpux { }")) as [r ff'] eqn:E. vm_compute in E. injection E as <- <-. eexists _, _. split; [reflexivity|]. split; [split; [reflexivity|discriminate]|]. split; [reflexivity|]. vm_compute. exact I.
Qed.
(** The errors of `fatalError` (a missing bracket) have a rule name and are different: they
    name the place where the bracket should stand after the last complete part, and the
    next byte to change may be arbitrarily far behind it. *)
Definition far_open : bytes := b "filter { aa { aaaaaaaaaaaaaaaaaaaaaaaaaaaaaaaaaaaaaaaaaaaaaaaa ".
Example C75_fatal_differs : exists e ff' m, parse [] [] far_open = (Returned VNil [e], ff') /\ e_rule e = Some m /\ p_off (e_pos e) + 32 < List.length far_open /\
  match fst (parse [] [] (far_open ++ b "=> 5 } }")) with Returned (VConfig _) [] => True | _ => False end.
Proof.
  destruct (parse [] [] far_open) as [r ff'] eqn:E. vm_compute in E. injection E as <- <-. eexists _, _, _. split; [reflexivity|]. split; [reflexivity|]. split; [cbn; lia|]. vm_compute. exact I.
Qed.
(** A file cut off in the middle of a plugin. *)
Example C75_truncated_case : exists c ff ff2 e, parse [] [] (b "input { aa { bb => 5 } } " ++ b "output { aa { } }") = (Returned (VConfig c) [], ff) /\
  parse [] [] (b "input { aa { bb => 5 } } " ++ b "outp") = (Returned VNil [e], ff2) /\ no_match_error e /\ p_off (e_pos e) = 25.
Proof.
  destruct (parse [] [] (b "input { aa { bb => 5 } } " ++ b "output { aa { } }")) as [r ff] eqn:E. vm_compute in E. injection E as <- <-.
  destruct (parse [] [] (b "input { aa { bb => 5 } } " ++ b "outp")) as [r2 ff2] eqn:E2. vm_compute in E2. injection E2 as <- <-.
  eexists _, _, _, _. split; [reflexivity|]. split; [reflexivity|]. split; [split; [reflexivity|discriminate]|reflexivity].
Qed.
