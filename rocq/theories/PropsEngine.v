(** Properties of Parse as a whole: C01-C05, C07, C15-C17, C44. *)
From Coq Require Import List NArith ZArith Bool String Arith Lia.
From Verif Require Import Bytes Utf8 F64 Ast Peg Actions Engine Parser GrammarGen QuoteFacts Utf8Facts PosFacts Run EngineFacts
  Termination Matches RunInv Sim HistFacts ParseFacts InputFacts LimitFacts.
Import ListNotations.

(** A text used in the examples *)
Definition sample : bytes := b "input { stdin { id => ""x"" } } # c".
Definition broken : bytes := b "input { stdin { id => } }".

(** ** C01: Parse terminates on every input *)
(** [parse_with n]: Parse when nested calls and iterations are cut off at depth
    [n]; [Diverged] if the cut-off was hit.  A depth linear in the length of the
    input is never exceeded. *)
Theorem C01_terminates : forall opts ff data,
  fst (parse opts ff data) <> Diverged /\
  forall n, 600 * (1 + List.length data) <= n ->
    parse_with n gen_grammar (config_of opts) ff data = parse opts ff data.
Proof.
  intros opts ff data. split; [exact (parse_terminates opts ff data)|].
  intros n Hn. apply parse_fuel_irrelevant. unfold parse_fuel, fuel_factor. lia.
Qed.
Print Assumptions C01_terminates.
(** The bound matters: with too small a depth the model does diverge. *)
Example C01_case : fst (parse_with 5 gen_grammar (config_of []) [] sample) = Diverged.
Proof. reflexivity. Qed.

(** ** C02: kinds of results *)
(** With the default entry point and recovery, no panic leaves Parse; either the
    value is a Config or it is nil and the error is not. *)
Theorem C02_kinds : forall opts ff data,
  k_entry (config_of opts) = "init"%string -> k_recover (config_of opts) = true ->
  exists v errs, fst (parse opts ff data) = Returned v errs /\
    ((exists c, v = VConfig c) \/ (v = VNil /\ errs <> [])).
Proof. exact parse_kinds. Qed.
Print Assumptions C02_kinds.
(** Hence the unchecked conversion after a nil error is safe. *)
Theorem C02_nil_error_is_config : forall opts ff data v ff',
  k_entry (config_of opts) = "init"%string ->
  parse opts ff data = (Returned v [], ff') -> exists c, v = VConfig c.
Proof.
  intros opts ff data v ff' He H. pose proof (parse_run opts ff data) as P. rewrite He, find_init in P.
  destruct P as (r & R & E). rewrite E in H. destruct r as [v1 en s|en s|m x s|]; cbn in H.
  - inversion H; subst. eapply init_ok_config. exact R.
  - destruct (s_errs s); discriminate.
  - destruct (k_recover _); inversion H. destruct (s_errs s); discriminate.
  - discriminate.
Qed.
Print Assumptions C02_nil_error_is_config.
(** A fatal syntax error: no value. *)
Theorem C02_fatal_no_value : forall opts ff data v errs ff' e,
  k_recover (config_of opts) = true ->
  parse opts ff data = (Returned v errs, ff') -> In e errs -> fatal_text (e_msg e) = true -> v = VNil.
Proof. intros. eapply fatal_record; eauto. Qed.
Print Assumptions C02_fatal_no_value.
Example C02_case : exists c ff, parse [] [] sample = (Returned (VConfig c) [], ff).
Proof. eexists _, _. vm_compute. reflexivity. Qed.
Example C02_case_fatal : exists e ff, parse [] [] broken = (Returned VNil [e], ff) /\ fatal_text (e_msg e) = true.
Proof. eexists _, _. vm_compute. split; reflexivity. Qed.

(** ** C03: the whole input was consumed *)
(** [matches g e t]: the text [t], all of it, belongs to the language of [e]
    (Matches.v: no order, no greediness, lookahead only restricts). *)
Theorem C03_whole_input : forall opts ff data c errs ff',
  k_entry (config_of opts) = "init"%string ->
  parse opts ff data = (Returned (VConfig c) errs, ff') ->
  matches gen_grammar (ERef "init") data.
Proof. exact parse_whole. Qed.
Print Assumptions C03_whole_input.
(** ... and the run that produced the value ended at the end of the input. *)
Theorem C03_at_end : forall o ff data v en s,
  ev o gen_grammar "init" gen_init [] (init_st o ff data) (OOk v en s) -> pt_rest (s_pt s) = [].
Proof. intros o ff data v en s H. eapply (init_ok_eof o data); [|exact H]. rewrite init_st_pt. constructor. Qed.
Print Assumptions C03_at_end.
Example C03_case : exists errs ff, parse [] [] (sample ++ [NL] ++ b "junk") = (Returned VNil errs, ff) /\ errs <> [].
Proof. eexists _, _. vm_compute. split; [reflexivity|discriminate]. Qed.

(** ** C04: invalid UTF-8 is rejected *)
Theorem C04_valid_utf8 : forall opts ff data c ff',
  k_entry (config_of opts) = "init"%string -> k_invalid (config_of opts) = false ->
  parse opts ff data = (Returned (VConfig c) [], ff') -> utf8_text data.
Proof. exact parse_utf8. Qed.
Print Assumptions C04_valid_utf8.
(** Equivalently: *)
Theorem C04_invalid_rejected : forall opts ff data,
  k_entry (config_of opts) = "init"%string -> k_invalid (config_of opts) = false -> k_recover (config_of opts) = true ->
  ~ utf8_text data -> exists v errs, fst (parse opts ff data) = Returned v errs /\ errs <> [].
Proof.
  intros opts ff data He Hv Hr Hu. destruct (parse_kinds opts ff data He Hr) as (v & errs & E & K).
  exists v, errs. split; [exact E|]. destruct K as [(c & ->)|[_ K]]; [|exact K].
  intros ->. apply Hu. apply (parse_utf8 opts ff data c (snd (parse opts ff data)) He Hv). now rewrite <- E, <- surjective_pairing.
Qed.
Print Assumptions C04_invalid_rejected.
(** On valid UTF-8 the check changes nothing at all. *)
Theorem C04_valid_unaffected : forall opts x ff data, utf8_text data ->
  parse (opts ++ [OptAllowInvalidUTF8 x]) ff data = parse opts ff data.
Proof. exact parse_lenient. Qed.
Print Assumptions C04_valid_unaffected.
Example C04_case_bad : exists v errs ff, parse [] [] (b "# " ++ [200%N; 65%N; 10%N]) = (Returned v errs, ff) /\ errs <> [].
Proof. eexists _, _, _. vm_compute. split; [reflexivity|discriminate]. Qed.
Example C04_case_allowed : exists c ff, parse [OptAllowInvalidUTF8 true] [] (b "# " ++ [200%N; 65%N; 10%N]) = (Returned (VConfig c) [], ff).
Proof. eexists _, _. vm_compute. reflexivity. Qed.
Example C04_case_good : utf8_text (b "# " ++ [195%N; 164%N; 10%N]).
Proof. exists [35; 32; 228; 10]%N. split; [|reflexivity]. repeat constructor; unfold scalar; lia. Qed.

(** ** C05: earlier parses do not matter *)
(** Value and error, for every history (content of the failure record) and all options: *)
Theorem C05_result_history_free : forall opts ff ff' data,
  fst (parse opts ff data) = fst (parse opts ff' data).
Proof. exact parse_history_result. Qed.
Print Assumptions C05_result_history_free.
(** ... and with the default entry point also the failure record left behind,
    unless MaxExpressions is 1, 2 or 3. *)
Theorem C05_record_history_free : forall opts ff ff' data,
  k_entry (config_of opts) = "init"%string ->
  (k_max (config_of opts) = 0 \/ 4 <= k_max (config_of opts))%N ->
  parse opts ff data = parse opts ff' data.
Proof.
  intros opts ff ff' data He Hm. apply parse_history; [exact He|]. unfold resets_record.
  apply orb_true_iff. rewrite N.eqb_eq, N.leb_le. exact Hm.
Qed.
Print Assumptions C05_record_history_free.
(** With such a tiny limit the parse stops before the reset: the record of the
    earlier parse stays. *)
Theorem C05_tiny_limit_keeps_record : forall opts ff data,
  k_entry (config_of opts) = "init"%string -> k_recover (config_of opts) = true ->
  (0 < k_max (config_of opts) < 4)%N ->
  exists errs p, parse opts ff data = (Returned VNil (errs ++ [PError p (Some "init"%string) max_expr_msg]), ff).
Proof.
  intros opts ff data He Hr Hm. apply parse_tiny_limit; auto. unfold resets_record.
  apply orb_false_iff. rewrite N.eqb_neq, N.leb_gt. lia.
Qed.
Print Assumptions C05_tiny_limit_keeps_record.
Example C05_case : snd (parse [] [] broken) <> [] /\ snd (parse [] (snd (parse [] [] broken)) []) = snd (parse [] [] []).
Proof. split; [vm_compute; discriminate|]. vm_compute. reflexivity. Qed.

(** ** C07: ExceptionalCommentsWarning only changes Warnings *)
(** Two option lists that agree except possibly on that option: *)
Theorem C07_only_warnings : forall opts opts' ff data,
  k_entry (config_of opts) = "init"%string -> k_entry (config_of opts') = "init"%string ->
  k_max (config_of opts) = k_max (config_of opts') ->
  k_invalid (config_of opts) = k_invalid (config_of opts') ->
  k_recover (config_of opts) = k_recover (config_of opts') ->
  k_ignore (config_of opts) = k_ignore (config_of opts') ->
  drop_warnings_r (fst (parse opts ff data)) = drop_warnings_r (fst (parse opts' ff data)) /\
  snd (parse opts ff data) = snd (parse opts' ff data).
Proof. exact parse_warn. Qed.
Print Assumptions C07_only_warnings.
Theorem C07_no_warnings_without_option : forall opts ff data c errs ff',
  k_entry (config_of opts) = "init"%string -> k_warn (config_of opts) = false ->
  parse opts ff data = (Returned (VConfig c) errs, ff') -> cf_warnings c = [].
Proof. exact parse_no_warnings. Qed.
Print Assumptions C07_no_warnings_without_option.
Example C07_case : exists c ff, parse [OptExceptionalCommentsWarning true] [] (b "input # x" ++ [NL] ++ b "{ }") = (Returned (VConfig c) [], ff)
  /\ List.length (cf_warnings c) = 1.
Proof. eexists _, _. vm_compute. split; reflexivity. Qed.

(** ** C15: MaxExpressions only cuts a parse short *)
(** [expressions opts ff data]: number of expressions the unlimited parse evaluates. *)
Theorem C15_limit : forall n opts ff data, (0 < n)%N ->
  ((expressions opts ff data <= n)%N -> parse (with_limit n opts) ff data = parse (with_limit 0 opts) ff data) /\
  ((n < expressions opts ff data)%N ->
     exists errs p rule ff', parse (with_limit n opts) ff data =
       (if k_recover (config_of opts) then Returned VNil (errs ++ [PError p (Some rule) max_expr_msg]) else Panicked max_expr_msg, ff')).
Proof. exact parse_limit. Qed.
Print Assumptions C15_limit.
(** The counter of evaluated expressions stops at the first refused one. *)
Theorem C15_count : forall o n g rule e en s r, o_max o = Some n -> ev o g rule e en s r -> (s_cnt s <= n)%N -> (out_cnt r <= n + 1)%N.
Proof. exact limited_count. Qed.
Print Assumptions C15_count.
Example C15_case : expressions [] [] (b "input { }") = 236%N.
Proof. vm_compute. reflexivity. Qed.

(** ** C16: the failure record *)
(** After every sequence of parses (from program start), with any inputs and options: *)
Theorem C16_one_offset_no_duplicates : forall history,
  let ff := record_after history in
  (forall f f', In f ff -> In f' ff -> f_off f = f_off f') /\ NoDup (map f_msg ff).
Proof. exact record_after_good. Qed.
Print Assumptions C16_one_offset_no_duplicates.
(** A fatal syntax error leaves exactly its own entry, and GetFarthestFailure
    reports the text of the returned error. *)
Theorem C16_fatal_entry : forall opts ff data v errs ff' e,
  k_recover (config_of opts) = true ->
  parse opts ff data = (Returned v errs, ff') -> In e errs -> fatal_text (e_msg e) = true ->
  v = VNil /\ exists f t, ff' = [f] /\ farthest_failure ff' = Some t /\ e_msg e = MText t.
Proof. exact fatal_record. Qed.
Print Assumptions C16_fatal_entry.
Example C16_case : map f_msg (record_after [([], sample); ([], b "input { stdin { id ")]) = [b "expect closing curly bracket"]
  /\ map f_msg (record_after [([], broken); ([], b "bogus { }")]) = [b "expect plugin type (input, filter, output)"].
Proof. vm_compute. split; reflexivity. Qed.

(** ** C17: soft failures never move the record backwards *)
(** Any sequence of soft failures reported on an empty record leaves exactly the
    failures with the largest offset, each message once, in order of first report. *)
Theorem C17_farthest_only : forall l s, Forall proper l -> s_ff s = [] -> s_ff (report l s) = at_farthest l.
Proof. exact report_spec. Qed.
Print Assumptions C17_farthest_only.
(** During a run of any expression that does not contain the reset the offset of
    the record does not decrease; *)
Theorem C17_monotone : forall o n rule e en s, no_reset not_init e = true ->
  match eval o gen_grammar n rule e en s with
  | OOk _ _ s' | OFail _ s' => rec_off (s_ff s) <= rec_off (s_ff s')
  | _ => True
  end.
Proof. exact eval_off_mono. Qed.
Print Assumptions C17_monotone.
(** ... and right after a soft failure it is at least that failure's offset. *)
Theorem C17_covers : forall m s,
  rec_off (s_ff s) <= rec_off (s_ff (push_error m s)) /\ p_off (s_cpos s) + List.length (s_ctext s) <= rec_off (s_ff (push_error m s)).
Proof. exact push_off. Qed.
Print Assumptions C17_covers.
Example C17_case : no_reset not_init gen_config = true /\ no_reset not_init gen_init = false.
Proof. split; reflexivity. Qed.
Example C17_case_report : exists f, at_farthest [Failure (b "x") zero_pos (b "abc") 3; f; f; Failure (b "z") zero_pos (b "a") 1] = [f].
Proof. exists (Failure (b "y") (Pos 1 1 2) (b "ab") 4). reflexivity. Qed.

(** ** C44: a failing alternative leaves no trace *)
(** Whatever expression fails, in whatever state the parser can be in: position
    and warnings are what they were. *)
Theorem C44_rollback : forall o data n rule e en s en' s',
  lits_ok e = true -> Reach data (s_pt s) ->
  eval o gen_grammar n rule e en s = OFail en' s' -> s_pt s' = s_pt s /\ s_warns s' = s_warns s.
Proof.
  intros o data n rule e en s en' s' He Hs H.
  assert (R : ev o gen_grammar rule e en s (OFail en' s')) by (rewrite <- H; apply eval_ev; congruence).
  exact (ev_track o gen_grammar data gen_lits_ok _ _ _ _ _ R He Hs).
Qed.
Print Assumptions C44_rollback.
(** Lookahead leaves no trace either, whether it succeeds or fails. *)
Theorem C44_lookahead : forall o data n rule e en s v en' s',
  lits_ok e = true -> Reach data (s_pt s) ->
  eval o gen_grammar n rule (ENot e) en s = OOk v en' s' -> s_pt s' = s_pt s /\ s_warns s' = s_warns s.
Proof.
  intros o data n rule e en s v en' s' He Hs H.
  assert (R : ev o gen_grammar rule (ENot e) en s (OOk v en' s')) by (rewrite <- H; apply eval_ev; congruence).
  apply inv_not in R as [[_ K]|[_ (r & R & K)]]; [discriminate|].
  pose proof (ev_track o gen_grammar data gen_lits_ok _ _ _ _ _ R He Hs) as T.
  destruct r as [v1 en1 s1|en1 s1| |]; try discriminate. unfold not_out in K.
  assert (E : s' = restore (s_pt (tick s)) (set_warns (s_warns (tick s)) (set_mfinv (negb (s_mfinv s1)) s1))) by congruence.
  destruct T as [T _]. subst s'. rewrite restore_warns. split; [|reflexivity].
  apply (restore_pt data); [exact Hs|]. cbn. now rewrite T.
Qed.
Print Assumptions C44_lookahead.
Example C44_case : exists en s', eval (settings_of default_cfg) gen_grammar 700 "config" gen_config [] (init_st (settings_of default_cfg) [] (b "bogus x")) = OFail en s'
  /\ s_ff s' <> [].
Proof. eexists _, _. vm_compute. split; [reflexivity|discriminate]. Qed.
