(** Property C58: exactly the texts written from a configuration are accepted.
    Specification: Written.v ([written]; [clear_section]: plugins that can be told from
    branches) and Tree.v ([wf_bop]: names, strings, numbers and lists as the language has
    them). *)
From Coq Require Import List NArith ZArith Bool String Arith Lia.
From Verif Require Import Bytes Utf8 EscapeFacts F64 Ast Peg Actions Engine Parser GrammarGen AstPrint Utf8Facts PosFacts RunInv InputFacts LimitFacts Strip HistFacts PegSem PegFacts ParseFacts LexFacts Tree SoundRules ParseTree Layout Spelled
  SpellParse Written Exact FreeConf ClearRules AppFacts PropsTree PropsRound PropsLayout.
Import ListNotations.

(** The sections of a configuration that can be written down *)
Definition writable (ss : list section) : Prop := Forall (fun s => ps_type s <> PTUndef /\ All wf_bop (ps_bops s) /\ clear_section s) ss.
(** The text is a configuration in some layout *)
Definition layout_of (ss : list section) (data : bytes) : Prop := exists foot, written (pc_config ss foot) data [].
Definition tree_of (ss : list section) : config :=
  Config (map shape_section (of_type PTInput ss)) (map shape_section (of_type PTFilter ss)) (map shape_section (of_type PTOutput ss)) [] [].

Lemma of_type_in s ss c (P : section -> Prop) : In s ss -> ps_type s <> PTUndef ->
  cf_input c = of_type PTInput ss -> cf_filter c = of_type PTFilter ss -> cf_output c = of_type PTOutput ss ->
  All P (cf_input c) -> All P (cf_filter c) -> All P (cf_output c) -> P s.
Proof.
  intros I N E1 E2 E3 A1 A2 A3. rewrite E1 in A1. rewrite E2 in A2. rewrite E3 in A3. apply All_Forall in A1, A2, A3. rewrite Forall_forall in A1, A2, A3.
  unfold of_type, is_type in *. destruct (ps_type s) eqn:T; [apply A1|apply A2|apply A3|congruence]; apply filter_In; (split; [exact I|now rewrite T]).
Qed.
Lemma All_imp {A} (P Q : A -> Prop) l : (forall x, P x -> Q x) -> All P l -> All Q l.
Proof. intros H K. apply All_Forall. apply All_Forall in K. eapply Forall_impl; eauto. Qed.

Lemma accepted_written opts ff data c ff' : k_entry (config_of opts) = "init"%string -> k_ignore (config_of opts) = true ->
  parse opts ff data = (Returned (VConfig c) [], ff') -> exists ss, writable ss /\ layout_of ss data.
Proof.
  intros He Hi E. destruct (parse_spelled opts ff data c ff' He E) as [[G _]|(ss & hs & _ & N & E1 & E2 & E3 & S & _)].
  { exists []. split; [constructor|]. exists [], 0. cbn. exists data, []. rewrite app_nil_r. auto. }
  destruct (parse_tree opts ff data c ff' He E) as [(W1 & W2 & W3 & _) _].
  destruct (parse_any_peg opts ff data c ff' He E) as (c0 & en & q & P & D). rewrite Hi in P.
  destruct (peg_clear data _ _ _ _ _ find_init P (reach_start data)) as (c1 & X & C1 & C2 & C3). inversion X; subst c1. clear X.
  assert (D1 : cf_input c0 = cf_input c /\ cf_filter c0 = cf_filter c /\ cf_output c0 = cf_output c) by (destruct c, c0; inversion D; auto). destruct D1 as (D1 & D2 & D3).
  rewrite D1 in C1. rewrite D2 in C2. rewrite D3 in C3. exists ss. split.
  - apply Forall_forall. intros s I. pose proof (proj1 (Forall_forall _ _) N s I) as T. split; [exact T|]. split.
    + apply (of_type_in s ss c (fun s => All wf_bop (ps_bops s)) I T E1 E2 E3); [eapply All_imp; [|exact W1]|eapply All_imp; [|exact W2]|eapply All_imp; [|exact W3]]; intros x (_ & _ & _ & H); exact H.
    + now apply (of_type_in s ss c clear_section I T E1 E2 E3).
  - exists (cf_foot c). destruct (spelled_writes _ _ _ _ _ _ S [] ltac:(now rewrite app_nil_r)) as (n & K). rewrite app_nil_r in K. now exists n.
Qed.

(** ** C58: the accepted texts *)
(** Without an expression limit: Parse accepts a text exactly if it is valid UTF-8 (or
    invalid text is allowed) and it is some configuration in some layout. *)
Theorem C58_accepted_iff_written : forall opts ff data,
  k_entry (config_of opts) = "init"%string -> k_max (config_of opts) = 0%N ->
  ((exists c ff', parse opts ff data = (Returned (VConfig c) [], ff')) <->
   (utf8_text data \/ k_invalid (config_of opts) = true) /\ exists ss, writable ss /\ layout_of ss data).
Proof.
  intros opts ff data He Hm. split.
  - intros A. split.
    { destruct A as (c & ff' & E). destruct (k_invalid (config_of opts)) eqn:I; [now right|left]. eapply parse_utf8; [exact He|exact I|exact E]. }
    apply C06_acceptance in A as (c & ff' & E).
    assert (K : config_of (opts ++ [OptIgnoreComments true]) = fst (apply_opt (OptIgnoreComments true) (config_of opts))) by (unfold config_of; now rewrite fold_left_app).
    eapply accepted_written; [| |exact E]; rewrite K; [exact He|reflexivity].
  - intros (U & ss & W & foot & L). destruct (C57_reads_back opts ff ss foot data W L He Hm U) as (c & ff' & E & _). eauto.
Qed.
Print Assumptions C58_accepted_iff_written.

(** The tree is that configuration, with any options and any limit. *)
Theorem C58_tree : forall opts ff data c ff',
  k_entry (config_of opts) = "init"%string -> parse opts ff data = (Returned (VConfig c) [], ff') ->
  exists ss, writable ss /\ layout_of ss data /\ shape_config c = tree_of ss.
Proof.
  intros opts ff data c ff' He E. apply parse_unlimited in E. set (o := with_limit 0 opts) in *.
  assert (K : config_of o = PCfg 0 (k_entry (config_of opts)) (k_invalid (config_of opts)) (k_recover (config_of opts)) (k_ignore (config_of opts)) (k_warn (config_of opts))) by apply with_limit_cfg.
  assert (He1 : k_entry (config_of o) = "init"%string) by now rewrite K. assert (Hm : k_max (config_of o) = 0%N) by now rewrite K.
  destruct (proj1 (C58_accepted_iff_written o ff data He1 Hm)) as (U & ss & W & foot & L); [eauto|].
  exists ss. split; [exact W|]. split; [now exists foot|]. destruct (C57_reads_back o ff ss foot data W L He1 Hm U) as (c2 & ff2 & E2 & S). rewrite E in E2. inversion E2; subst. exact S.
Qed.
Print Assumptions C58_tree.

(** No text is a layout of two different configurations. *)
Theorem C58_unambiguous : forall ss1 ss2 data,
  writable ss1 -> writable ss2 -> layout_of ss1 data -> layout_of ss2 data -> tree_of ss1 = tree_of ss2.
Proof.
  intros ss1 ss2 data W1 W2 (f1 & L1) (f2 & L2).
  destruct (C57_reads_back [OptAllowInvalidUTF8 true] [] ss1 f1 data W1 L1 eq_refl eq_refl (or_intror eq_refl)) as (c1 & r1 & E1 & S1).
  destruct (C57_reads_back [OptAllowInvalidUTF8 true] [] ss2 f2 data W2 L2 eq_refl eq_refl (or_intror eq_refl)) as (c2 & r2 & E2 & S2).
  rewrite E1 in E2. inversion E2; subst. unfold tree_of. now rewrite <- S1, <- S2.
Qed.
Print Assumptions C58_unambiguous.

(** The two sides are met and missed: the text of C57 is a layout; the text `input {`
    is not a layout of anything, nor is `filter { if5 { a => 1 } }`, although `if5`
    alone is a name. *)
Example C58_case : writable [layout_section] /\ layout_of [layout_section] layout_loose.
Proof. destruct C57_case as (A & _ & B & _). split; [exact A|now exists []]. Qed.
Definition is_config (r : result) : bool := match r with Returned (VConfig _) [] => true | _ => false end.
Lemma not_layout data : is_config (fst (parse [OptAllowInvalidUTF8 true] [] data)) = false -> ~ exists ss, writable ss /\ layout_of ss data.
Proof.
  intros F (ss & W & L). destruct (proj2 (C58_accepted_iff_written [OptAllowInvalidUTF8 true] [] data eq_refl eq_refl)) as (c & ff' & E); [split; [now right|eauto]|].
  rewrite E in F. discriminate F.
Qed.
Example C58_not_a_layout : forall data, In data [b "input {"; b "filter { if5 { a => 1 } }"; b "inputs {}"; b "input { a { b => } }"] -> ~ exists ss, writable ss /\ layout_of ss data.
Proof. intros data I. apply not_layout. repeat destruct I as [<- | I]; [vm_compute; reflexivity..|destruct I]. Qed.
