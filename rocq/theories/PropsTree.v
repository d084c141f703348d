(** Properties of the tree that Parse returns: C06, C08, C43 (and, in PropsNodes.v,
    C09-C11, C13). *)
From Coq Require Import List NArith ZArith Bool String Arith Lia Sorted.
From Verif Require Import Bytes Utf8 F64 Ast Peg Actions Engine Parser GrammarGen QuoteFacts Utf8Facts PosFacts Run EngineFacts
  Termination Matches RunInv Sim HistFacts ParseFacts InputFacts LimitFacts Strip PegSem PegFacts LexFacts ItoaFacts WarnFacts Rules.
Import ListNotations.

(** ** C06: IgnoreComments only removes comments *)
(** [opts'] is [opts] plus IgnoreComments(true).  [strip_result] (Strip.v)
    empties every comment block of the returned tree - and of a Go value quoted
    in an error message - and changes nothing else. *)
Theorem C06_only_comments : forall opts ff data,
  let opts' := opts ++ [OptIgnoreComments true] in
  fst (parse opts' ff data) = strip_result (fst (parse opts ff data)) /\
  snd (parse opts' ff data) = snd (parse opts ff data).
Proof.
  intros opts ff data opts'. subst opts'.
  assert (E : config_of (opts ++ [OptIgnoreComments true]) = fst (apply_opt (OptIgnoreComments true) (config_of opts))).
  { unfold config_of. now rewrite fold_left_app. }
  apply parse_strip; now rewrite E.
Qed.
Print Assumptions C06_only_comments.
(** In particular acceptance and the tree without comments: *)
Theorem C06_acceptance : forall opts ff data,
  (exists c ff', parse opts ff data = (Returned (VConfig c) [], ff')) <->
  (exists c ff', parse (opts ++ [OptIgnoreComments true]) ff data = (Returned (VConfig c) [], ff')).
Proof.
  intros opts ff data. destruct (C06_only_comments opts ff data) as [E1 E2]. cbv zeta in *.
  destruct (parse opts ff data) as [r f], (parse (opts ++ _) ff data) as [r' f']. cbn in E1, E2. subst.
  split.
  - intros (c & ff' & E). inversion E; subst. cbn. eauto.
  - intros (c & ff' & E). inversion E as [[E1 E2]]. destruct r as [v l|m|]; cbn in E1; try discriminate.
    destruct v; try discriminate. destruct l; try discriminate. eauto.
Qed.
Print Assumptions C06_acceptance.
(** A tree with its comments emptied has none: stripping twice changes nothing,
    and the second parse returns a tree that is its own stripping. *)
Theorem C06_no_comments_left : forall opts ff data c errs ff',
  parse (opts ++ [OptIgnoreComments true]) ff data = (Returned (VConfig c) errs, ff') -> strip_config c = c.
Proof.
  intros opts ff data c errs ff' E. set (o1 := opts ++ _) in *.
  destruct (C06_only_comments o1 ff data) as [E1 _]. cbv zeta in E1.
  assert (K : config_of (o1 ++ [OptIgnoreComments true]) = config_of o1).
  { subst o1. unfold config_of. rewrite !fold_left_app. reflexivity. }
  unfold parse in E1 at 1. rewrite K in E1. fold (parse o1 ff data) in E1. rewrite E in E1. cbn in E1. inversion E1. congruence.
Qed.
Print Assumptions C06_no_comments_left.
Example C06_case : exists c c' ff, parse [] [] (b "# a" ++ [NL] ++ b "input { x { # b" ++ [NL] ++ b " } }") = (Returned (VConfig c) [], ff) /\
  parse [OptIgnoreComments true] [] (b "# a" ++ [NL] ++ b "input { x { # b" ++ [NL] ++ b " } }") = (Returned (VConfig c') [], ff) /\ c <> c'.
Proof. eexists _, _, _. vm_compute. split; [reflexivity|]. split; [reflexivity|]. discriminate. Qed.

(** ** C43: the parser accepts exactly the language of its grammar *)
(** [peg] (PegSem.v): the textbook meaning of parsing expressions.  A text
    derives a configuration if the start rule does, from its beginning. *)
Definition derives (ign : bool) (data : bytes) (c : config) : Prop :=
  exists en q, peg ign gen_grammar (ERef "init") [] (start_pt data) (POk (VConfig c) en q).

Theorem C43_accepts_iff_derivable : forall opts ff data c,
  k_entry (config_of opts) = "init"%string -> k_max (config_of opts) = 0%N -> k_warn (config_of opts) = false ->
  k_invalid (config_of opts) = false ->
  (exists ff', parse opts ff data = (Returned (VConfig c) [], ff')) <->
  (utf8_text data /\ derives (k_ignore (config_of opts)) data c).
Proof.
  intros opts ff data c He Hm Hw Hi. split.
  - intros (ff' & E). assert (U : utf8_text data) by (eapply parse_utf8; eauto). split; [exact U|].
    destruct (parse_peg opts ff data He Hm Hw (or_introl U)) as (r & R & K). rewrite E in K. cbn in K.
    destruct r as [v en q| |]; [|now elim (K (VConfig c))..]. inversion K; subst.
    exists [], q. eapply peg_ref; [apply find_init|exact R].
  - intros [U (en & q & D)]. destruct (parse_peg opts ff data He Hm Hw (or_introl U)) as (r & R & K).
    apply (peg_ref_ok _ _ _ _ _ _ _ _ _ find_init) in D as (en1 & D1). rewrite (peg_fun _ _ _ _ _ _ _ R D1) in K.
    exists (snd (parse opts ff data)). now rewrite <- K, <- surjective_pairing.
Qed.
Print Assumptions C43_accepts_iff_derivable.
(** With AllowInvalidUTF8 the encoding does not matter: *)
Theorem C43_lenient : forall opts ff data c,
  k_entry (config_of opts) = "init"%string -> k_max (config_of opts) = 0%N -> k_warn (config_of opts) = false ->
  k_invalid (config_of opts) = true ->
  (exists ff', parse opts ff data = (Returned (VConfig c) [], ff')) <-> derives (k_ignore (config_of opts)) data c.
Proof.
  intros opts ff data c He Hm Hw Hi. split.
  - intros (ff' & E).
    destruct (parse_peg opts ff data He Hm Hw (or_intror Hi)) as (r & R & K). rewrite E in K. cbn in K.
    destruct r as [v en q| |]; [|now elim (K (VConfig c))..]. inversion K; subst.
    exists [], q. eapply peg_ref; [apply find_init|exact R].
  - intros (en & q & D). destruct (parse_peg opts ff data He Hm Hw (or_intror Hi)) as (r & R & K).
    apply (peg_ref_ok _ _ _ _ _ _ _ _ _ find_init) in D as (en1 & D1). rewrite (peg_fun _ _ _ _ _ _ _ R D1) in K.
    exists (snd (parse opts ff data)). now rewrite <- K, <- surjective_pairing.
Qed.
Print Assumptions C43_lenient.
(** The reading is unambiguous. *)
Theorem C43_unambiguous : forall ign data c c', derives ign data c -> derives ign data c' -> c = c'.
Proof. intros ign data c c' (en & q & D) (en' & q' & D'). assert (E := peg_fun _ _ _ _ _ _ _ D D'). congruence. Qed.
Print Assumptions C43_unambiguous.
(** Every text is accepted or rejected: failure (no derivation) and abort (a
    fatal error or an error reported by a code block) are the only alternatives. *)
Theorem C43_total : forall ign data, utf8_text data ->
  exists r, peg ign gen_grammar gen_init [] (start_pt data) r.
Proof.
  intros ign data U. destruct (parse_peg [OptIgnoreComments ign] [] data eq_refl eq_refl eq_refl (or_introl U)) as (r & R & _). eauto.
Qed.
Print Assumptions C43_total.
(** The grammar of the generated Go parser is the published one (Rules.v writes
    logstash_config.peg out rule by rule). *)
Theorem C43_published_grammar : gen_grammar = rules.
Proof. exact rules_are_generated. Qed.
Print Assumptions C43_published_grammar.
Example C43_case : exists c, derives false (b "input { stdin { } }") c.
Proof.
  assert (E : exists c ff', parse [OptAllowInvalidUTF8 true] [] (b "input { stdin { } }") = (Returned (VConfig c) [], ff')) by (eexists _, _; vm_compute; reflexivity).
  destruct E as (c & ff' & E). exists c. apply (C43_lenient [OptAllowInvalidUTF8 true] [] _ c eq_refl eq_refl eq_refl eq_refl). eauto.
Qed.

(** ** C08: warnings describe distinct places, in source order *)
(** A gap of the input: a text [t] of white space and comments ([gap_text],
    LexFacts.v) with at least one comment, starting at the position [p]. *)
Definition commented_gap (data : bytes) (x : position * bytes) : Prop :=
  exists pre post, data = pre ++ snd x ++ post /\ p_off (fst x) = List.length pre /\ true_pos data (fst x) /\
    gap_text (snd x) /\ In HASH (snd x).
(** the first ends before the second begins *)
Definition before (x y : position * bytes) : Prop := p_off (fst x) + List.length (snd x) <= p_off (fst y).
Theorem C08_places : forall opts ff data c errs ff',
  k_entry (config_of opts) = "init"%string ->
  parse opts ff data = (Returned (VConfig c) errs, ff') ->
  exists gaps,
    cf_warnings c = map (fun x => b "exceptional comment at " ++ itoa (p_line (fst x)) ++ b ":" ++ itoa (p_col (fst x))
                                    ++ b " [" ++ itoa (p_off (fst x)) ++ b "]") gaps /\
    Forall (commented_gap data) gaps /\ StronglySorted before gaps.
Proof.
  intros opts ff data c errs ff' He H. apply parse_places in H as (ps & E & P); [|exact He].
  apply places_gaps in P as (gaps & -> & F & S & _). exists gaps. split; [|split; [|exact S]].
  - rewrite E, map_map. reflexivity.
  - eapply Forall_impl; [|exact F]. intros [p t] (pre & post & E1 & E2 & E3 & E4 & E5). exists pre, post. cbn in *.
    repeat (split; [assumption|]). split; [exact (gap_matches _ _ E4)|exact E5].
Qed.
Print Assumptions C08_places.
Theorem C08_distinct : forall opts ff data c errs ff',
  k_entry (config_of opts) = "init"%string ->
  parse opts ff data = (Returned (VConfig c) errs, ff') -> NoDup (cf_warnings c).
Proof.
  intros opts ff data c errs ff' He H. apply parse_places in H as (ps & E & P); [|exact He].
  apply places_gaps in P as (gaps & -> & F & S & _). rewrite E, map_map. exact (gaps_nodup _ _ _ F S).
Qed.
Print Assumptions C08_distinct.
Example C08_case : exists c ff, parse [OptExceptionalCommentsWarning true] [] (b "input { x # a" ++ [NL] ++ b "{ k # b" ++ [NL] ++ b "=> vv } }") = (Returned (VConfig c) [], ff) /\
  cf_warnings c = [b "exceptional comment at 1:10 [9]"; b "exceptional comment at 2:4 [17]"].
Proof. eexists _, _. vm_compute. split; reflexivity. Qed.
