(** Parsing what the printer wrote: the derivation of ReadConf.v turned into a statement
    about [parse]. *)
From Coq Require Import List NArith Bool String Arith Lia.
From Verif Require Import Bytes Utf8 F64 Ast Peg Actions Engine Parser GrammarGen AstPrint QuoteFacts Utf8Facts PosFacts Run EngineFacts
  Termination Matches RunInv Sim HistFacts ParseFacts InputFacts LimitFacts Strip PegSem PegFacts Rules Tree ParseTree
  Bare Reads Layout ReadVal ReadCond ReadBop ReadConf.
Import ListNotations.

Lemma gen_init_e : gen_init = init_e.
Proof. pose proof RunInv.find_init as F. rewrite rules_are_generated in F. inversion F. reflexivity. Qed.

(** for the options of a formatter: no limit, comments kept; warnings make no difference *)
Lemma parse_printed_nowarn opts ff c : printable c ->
  k_entry (config_of opts) = "init"%string -> k_max (config_of opts) = 0%N -> k_warn (config_of opts) = false ->
  k_ignore (config_of opts) = false -> utf8_text (config_string c) \/ k_invalid (config_of opts) = true ->
  exists c', fst (parse opts ff (config_string c)) = Returned (VConfig c') [] /\ bare_config c' = reread c.
Proof.
  intros P He Hm Hw Hi Hu. destruct (init_reads c P) as (en & t & E & O). rewrite app_nil_r in E. subst t.
  rewrite <- (config_layout c P) in O.
  destruct (reads_peg false rules _ _ _ _ _ O (start_pt (config_string c))) as (v0 & en1 & q & D & _ & Bv).
  { now rewrite start_rest, app_nil_r. }
  destruct (parse_peg opts ff (config_string c) He Hm Hw Hu) as (r & R & K). rewrite Hi, gen_init_e, rules_are_generated in R.
  pose proof (peg_fun _ _ _ _ _ _ _ R D) as X. subst r. cbn in K.
  destruct v0; try discriminate Bv. assert (X : bare_config c0 = reread c) by (cbn [bare] in Bv; congruence). eauto.
Qed.

(** what the printer wrote is read back as [reread c], whatever the other options *)
Theorem parse_printed opts ff c : printable c ->
  k_entry (config_of opts) = "init"%string -> k_max (config_of opts) = 0%N -> k_ignore (config_of opts) = false ->
  utf8_text (config_string c) \/ k_invalid (config_of opts) = true ->
  exists c' ff', parse opts ff (config_string c) = (Returned (VConfig c') [], ff') /\
    bare_config (drop_warnings c') = reread c.
Proof.
  intros P He Hm Hi Hu. set (o2 := opts ++ [OptExceptionalCommentsWarning false]).
  assert (K : config_of o2 = PCfg (k_max (config_of opts)) (k_entry (config_of opts)) (k_invalid (config_of opts)) (k_recover (config_of opts)) (k_ignore (config_of opts)) false).
  { unfold o2, config_of. rewrite fold_left_app. fold (config_of opts). now destruct (config_of opts). }
  destruct (parse_printed_nowarn o2 ff c P) as (c2 & E2 & B2); try (rewrite K; assumption || reflexivity).
  destruct (parse_warn opts o2 ff (config_string c)) as [A _]; try (rewrite K; reflexivity); [exact He|now rewrite K|].
  rewrite E2 in A. destruct (parse opts ff (config_string c)) as [r ff'] eqn:E. cbn [fst] in A.
  destruct r as [v l| |]; try discriminate A. cbn in A. injection A as A1 A2. subst l. destruct v; try discriminate A1. assert (X : drop_warnings c0 = drop_warnings c2) by (cbn [drop_warnings_v] in A1; congruence).
  exists c0, ff'. split; [reflexivity|]. rewrite X, <- B2. unfold reread, bare_config in B2. injection B2 as _ _ _ _ B2.
  unfold bare_config, drop_warnings. cbn. now rewrite B2.
Qed.
