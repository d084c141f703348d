(** GetFarthestFailure and the buffer that was given to Parse. *)
From Coq Require Import List NArith Bool String Arith Lia.
From Verif Require Import Bytes Utf8 F64 Ast Peg Actions Engine Parser GrammarGen QuoteFacts PosFacts Run ErrFacts PropsReport.
Import ListNotations.

(** ** Model

    parse_error_helper.go:9-13: an entry of farthestFailure keeps a copy of [current], and with it
    c.text, a slice of the array that the caller gave to Parse (logstash_config.go:12768, sliceFrom
    12550-12553; Parse does not copy it, 12019-12021 and newParser).  GetFarthestFailure converts it to a string when
    it is called (parse_error_helper.go:22).  Engine.v keeps the text as it is at the time of the failure; here
    the text is read again, from what the array holds now. *)
Definition window (buf : bytes) (f : failure) : bytes := firstn (List.length (f_text f)) (skipn (p_off (f_cpos f)) buf).
Definition read_again (buf : bytes) (f : failure) : failure := Failure (f_msg f) (f_cpos f) (window buf f) (f_off f).
(** parse_error_helper.go:19-30 [GetFarthestFailure], when the array of the entries holds [buf] *)
Definition farthest_now (buf : bytes) (ff : list failure) : option bytes := farthest_failure (map (read_again buf) ff).

(** ** C68 *)
Definition default_run (opts : list popt) : Prop :=
  k_entry (config_of opts) = "init"%string /\ (k_max (config_of opts) = 0 \/ 4 <= k_max (config_of opts))%N.

Lemma window_quotes data f : quotes data f -> window data f = f_text f.
Proof.
  intros (Eo & (post & E & Lp) & _). unfold window. assert (L : p_off (f_cpos f) <= List.length data) by lia. rewrite E at 1.
  rewrite skipn_app, skipn_all2 by (rewrite firstn_length; lia). rewrite firstn_length. replace (_ - Nat.min _ _) with 0 by lia. cbn [skipn app].
  rewrite firstn_app, Nat.sub_diag, firstn_all. apply app_nil_r.
Qed.

(** As long as the caller leaves the buffer alone, GetFarthestFailure says what it says right after Parse. *)
Theorem C68_untouched : forall opts ff data, default_run opts ->
  farthest_now data (snd (parse opts ff data)) = farthest_failure (snd (parse opts ff data)).
Proof.
  intros opts ff data (He & Hm). unfold farthest_now. f_equal. rewrite <- (map_id (snd (parse opts ff data))) at 2. apply map_ext_in. intros f I.
  unfold read_again. rewrite (window_quotes data f (C51_record _ _ _ _ He Hm I)). now destruct f.
Qed.
Print Assumptions C68_untouched.

(** When the caller has put other bytes into it, the position, the offset and the messages are still those of
    the failure; the quoted text is replaced by the bytes that now stand in its place. *)
Theorem C68_overwritten_partial : forall opts ff data buf t, default_run opts -> List.length buf = List.length data ->
  farthest_failure (snd (parse opts ff data)) = Some t ->
  exists pre text post pre' text' post' head tail,
    data = pre ++ text ++ post /\ buf = pre' ++ text' ++ post' /\ List.length pre' = List.length pre /\ List.length text' = List.length text /\
    t = head ++ flat_map (fun c => if (c =? NL)%N then b "\n" else [c]) text ++ tail /\
    farthest_now buf (snd (parse opts ff data)) = Some (head ++ flat_map (fun c => if (c =? NL)%N then b "\n" else [c]) text' ++ tail).
Proof.
  intros opts ff data buf t (He & Hm) L H. pose proof (fun f => C51_record opts ff data f He Hm) as Q.
  destruct (snd (parse opts ff data)) as [|f l]; [discriminate|]. specialize (Q f (or_introl eq_refl)). destruct Q as (Eo & (post & E & Lp) & _).
  set (k := p_off (f_cpos f)) in *. set (n := List.length (f_text f)) in *.
  exists (firstn k data), (f_text f), post, (firstn k buf), (firstn n (skipn k buf)), (skipn n (skipn k buf)),
    (b "Parsing error at pos " ++ position_string (f_cpos f) ++ b " and [" ++ itoa (f_off f) ++ b "] (after: '"),
    (b "'):" ++ [NL] ++ flat_map (fun x => failure_line (f_msg x)) (f :: l)).
  split; [exact E|]. split; [now rewrite (firstn_skipn n), firstn_skipn|]. split; [rewrite !firstn_length; lia|]. split; [rewrite firstn_length, skipn_length; fold n; lia|].
  assert (FM : flat_map (fun x => failure_line (f_msg x)) (map (read_again buf) (f :: l)) = flat_map (fun x => failure_line (f_msg x)) (f :: l)).
  { rewrite !flat_map_concat_map, map_map. reflexivity. }
  assert (SN : forall x, show_newline x = flat_map (fun c => if (c =? NL)%N then b "\n" else [c]) x) by reflexivity.
  split.
  - assert (Et : t = failure_head (f_cpos f) (f_off f) (f_text f) ++ flat_map (fun x => failure_line (f_msg x)) (f :: l)) by (unfold farthest_failure in H; congruence).
    rewrite Et. unfold failure_head. rewrite SN, <- !app_assoc. reflexivity.
  - assert (Et : farthest_now buf (f :: l) = Some (failure_head (f_cpos f) (f_off f) (window buf f) ++ flat_map (fun x => failure_line (f_msg x)) (map (read_again buf) (f :: l)))) by reflexivity.
    rewrite Et, FM. f_equal. unfold failure_head, window. rewrite SN, <- !app_assoc. reflexivity.
Qed.
Print Assumptions C68_overwritten_partial.

(** So a caller that reads the next file into the same buffer gets a message that quotes that file. *)
Theorem C68_refuted : exists data buf t t', List.length buf = List.length data /\
  farthest_failure (snd (parse [] [] data)) = Some t /\ farthest_now buf (snd (parse [] [] data)) = Some t' /\ t <> t'.
Proof.
  exists (b "input { stdin { a "), (b "secret secret secr"). eexists _, _. split; [reflexivity|]. split; [vm_compute; reflexivity|]. split; [vm_compute; reflexivity|]. discriminate.
Qed.
Print Assumptions C68_refuted.
Example C68_case : default_run [] /\ farthest_now (b "secret secret secr") (snd (parse [] [] (b "input { stdin { a "))) <> None.
Proof. split; [split; [reflexivity|left; reflexivity]|vm_compute; discriminate]. Qed.
