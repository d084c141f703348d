(** C62, C63: Parse and the grammar of Logstash, /repo/grammar.treetop.

    Treetop.v gives the meaning of a Treetop grammar, TreetopGen.v is the file, rule by
    rule: [taccepts treetop_grammar data] says that Logstash's own grammar accepts the text.
    [edited] (TtRules.v) is that grammar with four rules replaced:
    - rvalue without the alternative method_call;
    - selector_element with the class of all characters but closing brackets, OPENING
      BRACKETS and commas;
    - hashentries with comments between the entries too;
    - comment with an end of the text in place of the final line feed.
    The grammar does not know a text without a section ([has_section]). *)
From Coq Require Import List NArith Bool String Arith Lia.
From Verif Require Import Bytes Utf8 Utf8Facts F64 Ast Peg Actions Engine Parser GrammarGen QuoteFacts EngineFacts RunInv HistFacts ParseFacts
  PegSem Treetop TreetopGen TtMap TtLaws TtRules TtParse TtSame ErrFacts.
Import ListNotations.
Open Scope string_scope.

(** ** C62 *)
Theorem C62_accepted : forall opts ff data c ff', k_entry (config_of opts) = "init" ->
  parse opts ff data = (Returned (VConfig c) [], ff') -> (has_section c <-> taccepts edited data).
Proof. intros opts ff data c ff' He E. symmetry. exact (parse_edited opts ff data c ff' He E). Qed.
Print Assumptions C62_accepted.

(** On texts without number signs, opening parentheses and brackets in brackets,
    grammar.treetop itself. *)
Theorem C62_plain : forall opts ff data c ff', k_entry (config_of opts) = "init" -> simple (chars data) ->
  parse opts ff data = (Returned (VConfig c) [], ff') -> (has_section c <-> taccepts treetop_grammar data).
Proof.
  intros opts ff data c ff' He Hs E. rewrite (C62_accepted opts ff data c ff' He E). unfold taccepts. split.
  - now apply edited_treetop.
  - now apply treetop_edited.
Qed.
Print Assumptions C62_plain.

(** With comments: if every number sign has a line feed after it (a text that ends in a line
    feed, [closed_ends]), only the comments between hash entries remain of the changes. *)
Theorem C62_comments : forall opts ff data c ff', k_entry (config_of opts) = "init" -> simple_closed (chars data) ->
  parse opts ff data = (Returned (VConfig c) [], ff') -> (has_section c <-> taccepts with_entry_comments data).
Proof.
  intros opts ff data c ff' He Hs E. rewrite (C62_accepted opts ff data c ff' He E). unfold taccepts. split.
  - now apply edited_commented.
  - now apply commented_edited.
Qed.
Print Assumptions C62_comments.

(** ** C63 *)
(** Parse says that nothing matches only of texts outside that language. *)
Theorem C63_no_match : forall opts ff data v errs ff' e, k_entry (config_of opts) = "init" -> k_max (config_of opts) = 0%N ->
  utf8_text data \/ k_invalid (config_of opts) = true ->
  parse opts ff data = (Returned v errs, ff') -> In e errs -> e_rule e = None -> e_msg e <> MText (b "invalid encoding") ->
  ~ taccepts edited data /\ ~ tm edited (TSeq [TRef "_"; TNot TAny]) (chars data) (Some []).
Proof.
  intros opts ff data v errs ff' e He Hm Hu E Hin Hr Hi.
  assert (K : ~ (taccepts edited data \/ tm edited (TSeq [TRef "_"; TNot TAny]) (chars data) (Some []))).
  { intros T. destruct (parse_in_language opts ff data v errs ff' He Hm Hu E T) as [[-> _]|[_ X]]; [destruct Hin|].
    destruct (X e Hin) as [Y|[r Y]]; [now apply Hi|congruence]. }
  split; intros T; apply K; auto.
Qed.
Print Assumptions C63_no_match.
(** A text of the language is accepted, with a section, or every error names a rule: what
    is rejected of the language is rejected by code (fatal errors, numbers out of range,
    plugins where the code takes none), not by the grammar. *)
Theorem C63_in_language : forall opts ff data v errs ff', k_entry (config_of opts) = "init" -> k_max (config_of opts) = 0%N ->
  utf8_text data \/ k_invalid (config_of opts) = true -> taccepts edited data -> parse opts ff data = (Returned v errs, ff') ->
  (errs = [] /\ exists c, v = VConfig c /\ has_section c) \/
  (errs <> [] /\ forall e, In e errs -> e_rule e = None -> e_msg e = MText (b "invalid encoding")).
Proof.
  intros opts ff data v errs ff' He Hm Hu T E.
  destruct (parse_in_language opts ff data v errs ff' He Hm Hu E (or_introl T)) as [[-> (c & ->)]|[A X]]; [left|right].
  - split; [reflexivity|]. exists c. split; [reflexivity|]. now apply (C62_accepted opts ff data c ff' He E).
  - split; [exact A|]. intros e Hin Hr. destruct (X e Hin) as [Y|[r Y]]; [exact Y|congruence].
Qed.
Print Assumptions C63_in_language.
(** The same for grammar.treetop itself *)
Theorem C63_plain : forall opts ff data v errs ff', k_entry (config_of opts) = "init" -> k_max (config_of opts) = 0%N ->
  utf8_text data \/ k_invalid (config_of opts) = true -> simple (chars data) -> taccepts treetop_grammar data -> parse opts ff data = (Returned v errs, ff') ->
  (errs = [] /\ exists c, v = VConfig c /\ has_section c) \/
  (errs <> [] /\ forall e, In e errs -> e_rule e = None -> e_msg e = MText (b "invalid encoding")).
Proof.
  intros opts ff data v errs ff' He Hm Hu Hs T E. apply (C63_in_language opts ff data v errs ff' He Hm Hu); [|exact E].
  unfold taccepts in *. now apply treetop_edited.
Qed.
Print Assumptions C63_plain.

Theorem C63_comments : forall opts ff data v errs ff', k_entry (config_of opts) = "init" -> k_max (config_of opts) = 0%N ->
  utf8_text data \/ k_invalid (config_of opts) = true -> simple_closed (chars data) -> taccepts with_entry_comments data -> parse opts ff data = (Returned v errs, ff') ->
  (errs = [] /\ exists c, v = VConfig c /\ has_section c) \/
  (errs <> [] /\ forall e, In e errs -> e_rule e = None -> e_msg e = MText (b "invalid encoding")).
Proof.
  intros opts ff data v errs ff' He Hm Hu Hs T E. apply (C63_in_language opts ff data v errs ff' He Hm Hu); [|exact E].
  unfold taccepts in *. now apply commented_edited.
Qed.
Print Assumptions C63_comments.

(** ** Cases *)
Definition tdecide (g : list (string * tx)) (data : bytes) : option bool :=
  match trun g 4000 (TRef "config") (chars data) with Some (Some []) => Some true | Some _ => Some false | None => None end.
Lemma tdecide_yes g data : tdecide g data = Some true -> taccepts g data.
Proof. unfold tdecide, taccepts. destruct (trun g 4000 _ _) as [[[|]|]|] eqn:E; try discriminate. intros _. eapply trun_tm; eauto. Qed.
Lemma tdecide_no g data : tdecide g data = Some false -> ~ taccepts g data.
Proof.
  unfold tdecide, taccepts. destruct (trun g 4000 _ _) as [[[|c r]|]|] eqn:E; try discriminate; intros _ K; pose proof (tm_fun _ _ _ _ (trun_tm _ _ _ _ _ E) _ K) as X; discriminate X.
Qed.
Definition yes (data : bytes) : bool := match parse [] [] data with (Returned (VConfig c) [], _) => match (cf_input c ++ cf_filter c ++ cf_output c)%list with [] => false | _ => true end | _ => false end.
Lemma yes_ok data : yes data = true -> exists c ff, parse [] [] data = (Returned (VConfig c) [], ff) /\ has_section c.
Proof.
  unfold yes. destruct (parse [] [] data) as [r ff] eqn:E. destruct r as [v l| |]; try discriminate. destruct v; try discriminate. destruct l; [|discriminate].
  intros H. eexists _, ff. split; [reflexivity|]. unfold has_section. intros X. rewrite X in H. discriminate.
Qed.
(** Parse rejects: the rules of the errors *)
Definition no (data : bytes) : option (list (option string)) := match parse [] [] data with (Returned _ (e :: l), _) => Some (map e_rule (e :: l)) | _ => None end.

(** [simple], decided *)
Fixpoint inner (seen : bool) (s : list N) : bool :=
  match s with
  | [] => false
  | c :: s' => if (c =? 93)%N then seen else if (c =? 44)%N then false else inner (seen || (c =? 91)%N) s'
  end.
Fixpoint nestedb (s : list N) : bool := match s with [] => false | c :: s' => ((c =? 91)%N && inner false s') || nestedb s' end.
Lemma inner_true y u seen : ~ In 93%N y -> ~ In 44%N y -> seen = true \/ In 91%N y -> inner seen (y ++ 93%N :: u) = true.
Proof.
  revert seen. induction y as [|c y IH]; intros seen A B C; cbn [app inner].
  - destruct C as [->|[]]. reflexivity.
  - destruct (N.eqb_spec c 93) as [->|_]; [exfalso; apply A; now left|]. destruct (N.eqb_spec c 44) as [->|_]; [exfalso; apply B; now left|].
    apply IH; [intros X; apply A; now right|intros X; apply B; now right|]. destruct C as [->|[->|C]]; [left; reflexivity|left; now rewrite orb_true_r|now right].
Qed.
Lemma nestedb_no s : nestedb s = false -> ~ nested s.
Proof.
  intros E (t & x & y & u & -> & A & B & C & D). induction t as [|c t IH]; cbn [app nestedb] in E; apply orb_false_iff in E as [E1 E2]; [|auto].
  cbn in E1. replace (x ++ 91 :: y ++ 93 :: u)%N%list with ((x ++ 91 :: y) ++ 93 :: u)%N%list in E1 by now rewrite <- app_assoc.
  rewrite inner_true in E1; [discriminate| | |right; apply in_or_app; right; now left].
  - rewrite in_app_iff. intros [X|[X|X]]; [auto|discriminate X|auto].
  - rewrite in_app_iff. intros [X|[X|X]]; [auto|discriminate X|auto].
Qed.
Definition simpleb (s : list N) : bool := negb (existsb (N.eqb 35) s) && negb (existsb (N.eqb 40) s) && negb (nestedb s).
Lemma simpleb_ok s : simpleb s = true -> simple s.
Proof.
  unfold simpleb. intros H. apply andb_true_iff in H as [H H3]. apply andb_true_iff in H as [H1 H2]. rewrite negb_true_iff in *.
  assert (K : forall c, existsb (N.eqb c) s = false -> ~ In c s).
  { intros c E X. assert (existsb (N.eqb c) s = true) by (apply existsb_exists; exists c; split; [exact X|apply N.eqb_refl]). congruence. }
  split; [now apply K|]. split; [now apply K|now apply nestedb_no].
Qed.

(** a text for every part of the grammar, without number signs, parentheses and nested brackets *)
Definition plain_text : bytes := b "input { stdin { id => ""a"" } } filter { if [x][y] == 1 and ""a"" in [bb, ""c""] or [q] =~ /e/ { mutate { a => [1, -2.5, ""x""] h => { ""k"" => v1 'l' => { } } } } else if ![z] { drop {} } else { x { } } } output { }".
Example C62_case : simple (chars plain_text) /\ yes plain_text = true /\ taccepts treetop_grammar plain_text.
Proof. split; [apply simpleb_ok; vm_compute; reflexivity|]. split; [vm_compute; reflexivity|apply tdecide_yes; vm_compute; reflexivity]. Qed.

Definition commented_text : bytes := b "# head" ++ [10%N] ++ b "filter { # a" ++ [10%N] ++ b "mutate { # b" ++ [10%N] ++ b "a => { k1 => ""v"" # c" ++ [10%N] ++ b "k2 => 2 } } }" ++ [10%N].
Example C62_comments_case : simple_closed (chars commented_text) /\ yes commented_text = true /\ taccepts with_entry_comments commented_text /\ ~ taccepts treetop_grammar commented_text.
Proof.
  split; [split|split; [vm_compute; reflexivity|split; [apply tdecide_yes; vm_compute; reflexivity|apply tdecide_no; vm_compute; reflexivity]]].
  - assert (E : exists t, chars commented_text = (t ++ [10%N])%list) by (exists (removelast (chars commented_text)); vm_compute; reflexivity).
    destruct E as (t & ->). apply closed_ends.
  - split; [|apply nestedb_no; vm_compute; reflexivity]. intros X. vm_compute in X. repeat (destruct X as [X|X]; [discriminate X|]). exact X.
Qed.

(** What the four changes and the condition on sections are for.  Accepted by Parse, not
    by grammar.treetop: *)
Definition bracket_text : bytes := b "filter { if [[aa]] == [bb] { } }".
Definition entry_comment : bytes := b "filter { a { b => { c1 => 1 " ++ [10%N] ++ b "# note" ++ [10%N] ++ b "d1 => 2 } } }".
Definition open_comment : bytes := b "filter { } # foo".
Theorem C62_refuted : yes bracket_text = true /\ ~ taccepts treetop_grammar bracket_text /\ yes entry_comment = true /\ ~ taccepts treetop_grammar entry_comment /\
  yes open_comment = true /\ ~ taccepts treetop_grammar open_comment /\
  (exists c ff, parse [] [] [] = (Returned (VConfig c) [], ff)) /\ ~ taccepts treetop_grammar [] /\
  taccepts edited bracket_text /\ taccepts edited entry_comment /\ taccepts edited open_comment.
Proof.
  split; [vm_compute; reflexivity|]. split; [apply tdecide_no; vm_compute; reflexivity|].
  split; [vm_compute; reflexivity|]. split; [apply tdecide_no; vm_compute; reflexivity|].
  split; [vm_compute; reflexivity|]. split; [apply tdecide_no; vm_compute; reflexivity|].
  split; [eexists _, _; vm_compute; reflexivity|]. split; [apply tdecide_no; vm_compute; reflexivity|].
  split; [apply tdecide_yes; vm_compute; reflexivity|]. split; apply tdecide_yes; vm_compute; reflexivity.
Qed.
(** Accepted by grammar.treetop, rejected by Parse: by the changed rules ... *)
Definition call_text : bytes := b "filter { if foo() == 1 { } }".
Definition bracket_text2 : bytes := b "filter { if [a[b] { } }".
(** ... and by code, where the edited grammar accepts too *)
Definition if_plugin : bytes := b "filter { if5 { a => 1 } }".
Definition else_plugin : bytes := b "filter { if [x] { } else { a => 1 } }".
Definition array_plugin : bytes := b "filter { a { b => [ 1, foo { } ] } }".
Definition entry_plugin : bytes := b "filter { a { b => { k1 => foo { } } } }".
Theorem C63_refuted :
  Forall (fun t => taccepts treetop_grammar t /\ ~ taccepts edited t /\ no t <> None) [call_text; bracket_text2] /\
  Forall (fun t => taccepts treetop_grammar t /\ taccepts edited t /\ exists l, no t = Some l /\ ~ In None l) [if_plugin; else_plugin; array_plugin; entry_plugin].
Proof.
  split; repeat (apply Forall_cons; [|]); try apply Forall_nil; (split; [apply tdecide_yes; vm_compute; reflexivity|]).
  1,2: split; [apply tdecide_no; vm_compute; reflexivity|vm_compute; discriminate].
  all: split; [apply tdecide_yes; vm_compute; reflexivity|]; eexists; (split; [vm_compute; reflexivity|]); cbn; intuition discriminate.
Qed.
(** "no match found" of a text outside the language *)
Example C63_case : no (b "filter { a { b => } }") <> None /\ exists l, no (b "bogus") = Some l /\ In None l /\ ~ taccepts edited (b "bogus").
Proof. split; [vm_compute; discriminate|]. eexists. split; [vm_compute; reflexivity|]. split; [now left|apply tdecide_no; vm_compute; reflexivity]. Qed.
