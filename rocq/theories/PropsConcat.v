(** Property C74: files one after the other, and files cut between two sections.
    Specification: [shape_config] (Written.v): a tree without positions, comments and
    warnings; [tree_of] (PropsExact.v): the tree of a list of sections. *)
From Coq Require Import List NArith ZArith Bool String Arith Lia.
From Verif Require Import Bytes Utf8 EscapeFacts F64 Ast Peg Actions Engine Parser GrammarGen AstPrint Utf8Facts Utf8Tree InputFacts LimitFacts ParseFacts LexFacts Tree Layout Spelled Written FreeConf PropsRound PropsLayout PropsExact Concat.
Import ListNotations.

(** The sections of [c] are those of [c1] and then those of [c2], for each type. *)
Definition sections_of (c c1 c2 : config) : Prop :=
  cf_input (shape_config c) = cf_input (shape_config c1) ++ cf_input (shape_config c2) /\
  cf_filter (shape_config c) = cf_filter (shape_config c1) ++ cf_filter (shape_config c2) /\
  cf_output (shape_config c) = cf_output (shape_config c1) ++ cf_output (shape_config c2).
(** [data] is accepted, with some options, and gives [c] *)
Definition is_file (data : bytes) (c : config) : Prop :=
  exists opts ff ff', k_entry (config_of opts) = "init"%string /\ parse opts ff data = (Returned (VConfig c) [], ff').
(** The second file starts on a new line. *)
Definition new_line (data1 sep : bytes) : Prop :=
  sep = [NL] \/ sep = [] /\ (data1 = [] \/ exists d, data1 = d ++ [NL]).

Lemma file_written data c : is_file data c -> exists ss foot, writable ss /\ written (pc_config ss foot) data [] /\ shape_config c = tree_of ss.
Proof. intros (opts & ff & ff' & He & E). destruct (C58_tree opts ff data c ff' He E) as (ss & W & (foot & L) & S). exists ss, foot. auto. Qed.
Lemma nothing : written (pc_config [] []) [] [].
Proof. exists 0, [], []. split; [reflexivity|]. split; [constructor|reflexivity]. Qed.
Lemma of_type_app t ss1 ss2 : of_type t (ss1 ++ ss2) = of_type t ss1 ++ of_type t ss2.
Proof. unfold of_type. apply filter_app. Qed.
Lemma new_line_gap d1 sep : new_line d1 sep -> forall p x y v, d1 = p ++ x -> gap_run x [] -> gap_run y v -> gap_run (x ++ sep ++ y) v.
Proof.
  intros [->|[-> H]] p x y v E Gx Gy; [now apply gap_nl|]. apply gap_after; [exact Gx| |exact Gy]. destruct H as [->|(d & ->)].
  - symmetry in E. apply app_eq_nil in E as [_ ->]. now left.
  - destruct x as [|c x] using rev_ind; [now left|]. clear IHx. right. rewrite app_assoc in E. apply app_inj_tail in E as [_ <-]. eauto.
Qed.

(** ** C74: two files *)
Theorem C74_concat : forall opts ff data1 sep data2 c1 c2,
  is_file data1 c1 -> is_file data2 c2 -> new_line data1 sep ->
  k_entry (config_of opts) = "init"%string -> k_max (config_of opts) = 0%N ->
  (utf8_text data1 /\ utf8_text data2) \/ k_invalid (config_of opts) = true ->
  exists c ff', parse opts ff (data1 ++ sep ++ data2) = (Returned (VConfig c) [], ff') /\ sections_of c c1 c2.
Proof.
  intros opts ff d1 sep d2 c1 c2 F1 F2 NLs He Hm U.
  destruct (file_written _ _ F1) as (ss1 & f1 & W1 & L1 & S1). destruct (file_written _ _ F2) as (ss2 & f2 & W2 & L2 & S2).
  pose proof (concat_written ss1 ss2 f1 f2 d1 sep d2 (new_line_gap _ _ NLs) L1 L2) as L.
  assert (W : writable (ss1 ++ ss2)) by (apply Forall_app; split; assumption).
  assert (UU : utf8_text (d1 ++ sep ++ d2) \/ k_invalid (config_of opts) = true).
  { destruct U as [[U1 U2]|U]; [left|now right]. destruct NLs as [->|[-> _]]; [|now apply utf8_app]. apply (utf8_at NL); [unfold NL; lia|auto]. }
  destruct (C57_reads_back opts ff _ _ _ W L He Hm UU) as (c & ff' & E & S). exists c, ff'. split; [exact E|].
  unfold sections_of. rewrite S, S1, S2. unfold tree_of. cbn [cf_input cf_filter cf_output]. rewrite !of_type_app, !map_app. auto.
Qed.
Print Assumptions C74_concat.

(** ** Any number of files, each with a line feed after it *)
Definition cat (files : list bytes) : bytes := flat_map (fun d => d ++ [NL]) files.
Theorem C74_files : forall opts ff files cs,
  Forall2 is_file files cs ->
  k_entry (config_of opts) = "init"%string -> k_max (config_of opts) = 0%N ->
  Forall utf8_text files \/ k_invalid (config_of opts) = true ->
  exists c ff', parse opts ff (cat files) = (Returned (VConfig c) [], ff') /\
    cf_input (shape_config c) = flat_map (fun x => cf_input (shape_config x)) cs /\
    cf_filter (shape_config c) = flat_map (fun x => cf_filter (shape_config x)) cs /\
    cf_output (shape_config c) = flat_map (fun x => cf_output (shape_config x)) cs.
Proof.
  intros opts ff files cs F He Hm. revert ff. induction F as [|d c0 files cs F0 F IH]; intros ff U.
  - destruct (C57_reads_back opts ff [] [] [] (Forall_nil _) nothing He Hm (or_introl utf8_nil)) as (c & ff' & E & S). exists c, ff'. split; [exact E|]. now rewrite S.
  - destruct (IH []) as (c1 & ff1 & E1 & S1 & S2 & S3); [destruct U as [U|U]; [left; now inversion U|now right]|].
    assert (F1 : is_file (cat files) c1) by (exists opts, [], ff1; auto).
    assert (UU : (utf8_text d /\ utf8_text (cat files)) \/ k_invalid (config_of opts) = true).
    { destruct U as [U|U]; [left|now right]. split; [now inversion U|]. inversion U as [|? ? _ V]; subst. clear - V. induction V as [|x l H V IH]; [apply utf8_nil|]. cbn [cat flat_map]. rewrite <- app_assoc. apply (proj2 (utf8_at NL x (cat l) ltac:(unfold NL; lia))). auto. }
    destruct (C74_concat opts ff d [NL] (cat files) c0 c1 F0 F1 (or_introl eq_refl) He Hm UU) as (c & ff' & E & T1 & T2 & T3).
    exists c, ff'. split; [cbn [cat flat_map]; rewrite <- app_assoc; exact E|]. cbn [flat_map]. now rewrite T1, T2, T3, S1, S2, S3.
Qed.
Print Assumptions C74_files.

(** ** A file cut between two sections *)
(** An accepted file has a list of sections, in source order, and wherever this list is
    cut, the file can be cut: both parts are accepted, with the sections before and
    after. *)
Theorem C74_cut : forall opts ff data c ff',
  k_entry (config_of opts) = "init"%string -> k_max (config_of opts) = 0%N ->
  parse opts ff data = (Returned (VConfig c) [], ff') ->
  exists ss, shape_config c = tree_of ss /\ Forall (fun s => ps_type s <> PTUndef) ss /\
    forall ss1 ss2, ss = ss1 ++ ss2 ->
    exists data1 data2, data = data1 ++ data2 /\ forall ffa ffb,
      exists c1 c2 ra rb, parse opts ffa data1 = (Returned (VConfig c1) [], ra) /\ parse opts ffb data2 = (Returned (VConfig c2) [], rb) /\
        shape_config c1 = tree_of ss1 /\ shape_config c2 = tree_of ss2.
Proof.
  intros opts ff data c ff' He Hm E. destruct (C58_tree opts ff data c ff' He E) as (ss & W & (foot & L) & S).
  exists ss. split; [exact S|]. split; [eapply Forall_impl; [|exact W]; now intros s [H _]|].
  assert (U : utf8_text data \/ k_invalid (config_of opts) = true).
  { destruct (k_invalid (config_of opts)) eqn:I; [now right|left]. eapply parse_utf8; [exact He|exact I|exact E]. }
  intros ss1 ss2 ->. apply Forall_app in W as [W1 W2]. destruct ss1 as [|s ss1].
  - exists [], data. split; [reflexivity|]. intros ffa ffb.
    destruct (C57_reads_back opts ffa [] [] [] (Forall_nil _) nothing He Hm (or_introl utf8_nil)) as (c1 & ra & E1 & S1).
    destruct (C57_reads_back opts ffb ss2 foot data W2 L He Hm U) as (c2 & rb & E2 & S2). exists c1, c2, ra, rb. auto.
  - apply cut_written in L as (d & d2 & Ed & L1 & L2); [|discriminate]. exists (d ++ b "}"), d2. split; [exact Ed|]. intros ffa ffb.
    assert (U2 : (utf8_text (d ++ b "}") /\ utf8_text d2) \/ k_invalid (config_of opts) = true).
    { destruct U as [U|U]; [left|now right]. rewrite Ed, <- app_assoc in U. apply (utf8_at 125%N) in U as [U1 U2]; [|lia]. split; [|exact U2]. apply (utf8_at 125%N); [lia|]. split; [exact U1|apply utf8_nil]. }
    destruct (C57_reads_back opts ffa (s :: ss1) [] _ W1 L1 He Hm) as (c1 & ra & E1 & S1); [tauto|].
    destruct (C57_reads_back opts ffb ss2 foot d2 W2 L2 He Hm) as (c2 & rb & E2 & S2); [tauto|]. exists c1, c2, ra, rb. auto.
Qed.
Print Assumptions C74_cut.

(** ** The line feed at the end of a file does not matter *)
Theorem C74_last_line : forall opts ff data,
  k_entry (config_of opts) = "init"%string -> k_max (config_of opts) = 0%N ->
  (forall c ff', parse opts ff data = (Returned (VConfig c) [], ff') ->
    exists c2 ff2, parse opts ff (data ++ [NL]) = (Returned (VConfig c2) [], ff2) /\ shape_config c2 = shape_config c) /\
  (forall c ff', parse opts ff (data ++ [NL]) = (Returned (VConfig c) [], ff') ->
    exists c2 ff2, parse opts ff data = (Returned (VConfig c2) [], ff2) /\ shape_config c2 = shape_config c).
Proof.
  intros opts ff data He Hm. split; intros c ff' E.
  - destruct (C58_tree opts ff data c ff' He E) as (ss & W & (foot & L) & S).
    assert (L2 : written (pc_config (ss ++ []) []) (data ++ [NL] ++ []) []) by (apply (concat_written ss [] foot [] data [NL] []); [intros p x y v _; apply gap_nl|exact L|exact nothing]).
    rewrite !app_nil_r in L2. destruct (C57_reads_back opts ff ss [] _ W L2 He Hm) as (c2 & r2 & E2 & S2); [|exists c2, r2; split; [exact E2|now rewrite S2, S]].
    destruct (k_invalid (config_of opts)) eqn:I; [now right|left]. apply (utf8_at NL); [unfold NL; lia|]. split; [eapply parse_utf8; eassumption|apply utf8_nil].
  - destruct (C58_tree opts ff _ c ff' He E) as (ss & W & (foot & L) & S). apply trim_written in L.
    destruct (C57_reads_back opts ff ss foot _ W L He Hm) as (c2 & r2 & E2 & S2); [|exists c2, r2; split; [exact E2|now rewrite S2, S]].
    destruct (k_invalid (config_of opts)) eqn:I; [now right|left]. apply parse_utf8 in E; [|exact He|exact I]. now apply (utf8_at NL) in E; [|unfold NL; lia].
Qed.
Print Assumptions C74_last_line.

(** The hypotheses are met: two files, the first ends with a comment. *)
Definition cat_one : bytes := b "input { } # c".
Definition cat_two : bytes := b "filter { mutate { id => 5 } }".
Example C74_case : exists c1 c2 c r1 r2 ff', parse [] [] cat_one = (Returned (VConfig c1) [], r1) /\ parse [] [] cat_two = (Returned (VConfig c2) [], r2) /\
  parse [] [] (cat [cat_one; cat_two]) = (Returned (VConfig c) [], ff') /\ List.length (cf_input c) = 1 /\ List.length (cf_filter c) = 1.
Proof.
  destruct (parse [] [] cat_one) as [x1 r1] eqn:E1. destruct (parse [] [] cat_two) as [x2 r2] eqn:E2. destruct (parse [] [] (cat [cat_one; cat_two])) as [x ff'] eqn:E.
  vm_compute in E1, E2, E. injection E1 as E1 _. injection E2 as E2 _. injection E as E _. subst x1 x2 x. do 6 eexists. split; [reflexivity|]. split; [reflexivity|]. split; [reflexivity|]. split; reflexivity.
Qed.
(** Without the line feed the second file is part of the comment: the text is accepted,
    but its filter is lost. *)
Example C74_needs_line : exists c ff', parse [] [] (cat_one ++ cat_two) = (Returned (VConfig c) [], ff') /\ List.length (cf_input c) = 1 /\ cf_filter c = [].
Proof. destruct (parse [] [] (cat_one ++ cat_two)) as [r ff'] eqn:E. vm_compute in E. injection E as E E'. subst r ff'. eexists _, _. split; [reflexivity|]. split; reflexivity. Qed.
