(** Properties C64 and C65: why Parse rejects a text, and the kind of value every
    entry point gives.  Specifications: here, Utf8Facts.v ([utf8_text]) and
    NumRange.v ([too_large]). *)
From Coq Require Import List NArith ZArith Bool String Arith Lia.
From Verif Require Import Bytes Utf8 F64 Ast Peg Actions Engine Parser GrammarGen QuoteFacts PosFacts Run EngineFacts
  Termination Matches RunInv Sim HistFacts ParseFacts Utf8Facts InputFacts Tree NumRange Types TypeSound.
Import ListNotations.

(** ** C64: why a text is rejected *)

(** The complaints about unfinished texts *)
Definition unfinished : list string :=
  ["expect closing curly bracket"; "expect closing double quotes ("")"; "expect closing parenthesis";
   "expect closing single quote (')"; "expect closing slash (/) for regexp"; "expect closing square bracket"]%string.

(** An array element that is a plugin *)
Definition plugin_element (m : emsg) : Prop := exists p, m = MGo (b "Unsupported attribute type %#v") (VPlugin p).

(** The possible errors of a call, [before]: the errors before it. *)
Inductive complaint (opts : list popt) (data : bytes) (before : list perror) (m : emsg) : Prop :=
| no_such_rule : ~ In (k_entry (config_of opts)) (map fst gen_grammar) ->
    m = MText (b "invalid entrypoint") -> complaint opts data before m
| nothing_matches expected : before = [] -> m = MText (b "no match found, expected: " ++ expected) ->
    complaint opts data before m
| not_utf8 : k_invalid (config_of opts) = false -> ~ utf8_text data -> m = MText (b "invalid encoding") ->
    complaint opts data before m
| too_many : k_max (config_of opts) <> 0%N -> m = MText (b "max number of expresssions parsed") ->
    complaint opts data before m
| not_finished what p off after : In what unfinished ->
    m = MText (b "Parsing error at pos " ++ position_string p ++ b " and [" ++ itoa off ++ b "] (after: '"
               ++ show_newline after ++ b "'):" ++ [NL] ++ b "-> " ++ b what ++ [NL]) ->
    complaint opts data before m
| number_range pre text post : data = pre ++ text ++ post -> too_large text ->
    m = MText (b "strconv.ParseFloat: parsing """ ++ text ++ b """: value out of range") ->
    complaint opts data before m
| plugin_in_array : plugin_element m -> complaint opts data before m
| plugin_not_element : (exists e, In e before /\ plugin_element (e_msg e)) ->
    m = MGo (b "Argument is not an attribute: %#v") VNil -> complaint opts data before m
| plugin_in_hash p : m = MGo (b "interface conversion") (VPlugin p) -> complaint opts data before m.

Lemma max_some opts : o_max (settings_of (config_of opts)) <> None -> k_max (config_of opts) <> 0%N.
Proof. cbn. destruct (N.eqb_spec (k_max (config_of opts)) 0); congruence. Qed.
Lemma reason_complaint opts data before m : reason (settings_of (config_of opts)) data before m -> complaint opts data before m.
Proof.
  intros [A B C|pre text post A B C D|A|A B].
  - now apply not_utf8.
  - apply parse_float_range in C; [|exact B]. now apply (number_range _ _ _ _ pre text post).
  - now apply plugin_in_array.
  - apply plugin_not_element; [|exact B]. apply Exists_exists in A. exact A.
Qed.
Lemma panic_complaint opts data before m : panic_reason (settings_of (config_of opts)) m -> complaint opts data before m.
Proof.
  intros [A B|what p off text A B|(p & A)].
  - apply too_many; [now apply max_some|exact B].
  - apply (not_finished _ _ _ _ what p off text); [exact A|]. rewrite B. unfold failure_head, failure_line. now rewrite <- !app_assoc.
  - now apply (plugin_in_hash _ _ _ _ p).
Qed.
Lemma reasons_split o data errs : reasons o data errs -> forall before e after, errs = before ++ e :: after -> reason o data before (e_msg e).
Proof.
  induction 1 as [|l x _ IH K]; intros before e after E; [now destruct before|].
  destruct (exists_last (l := e :: after)) as (l' & y & E'); [discriminate|].
  rewrite E' in E. rewrite app_assoc in E. apply app_inj_tail in E as [E <-].
  destruct l' as [|z l']; cbn in E'; injection E' as E0 E'.
  - rewrite app_nil_r in E. now subst.
  - apply (IH before e l'). now subst z.
Qed.

(** Every error of every call has one of these reasons. *)
Theorem C64_reasons : forall opts ff data v errs ff' before e after,
  parse opts ff data = (Returned v errs, ff') -> errs = before ++ e :: after -> complaint opts data before (e_msg e).
Proof.
  intros opts ff data v errs ff' before e after P E. pose proof (parse_run opts ff data) as H.
  destruct (find_rule (k_entry (config_of opts)) gen_grammar) as [x|] eqn:F.
  - destruct H as (r & R & H). rewrite H in P. destruct (run_typed _ _ _ _ _ _ F R) as (t & _ & G).
    destruct r as [v1 en s|en s|m y s|]; cbn in P, G.
    + injection P as _ <- _. destruct G as [G _]. apply reason_complaint. eapply reasons_split; eauto.
    + injection P as _ <- _. destruct (s_errs s) as [|e0 l] eqn:Es.
      * destruct before as [|b0 before]; [|destruct before; discriminate E]. injection E as <- _.
        eapply nothing_matches; reflexivity.
      * apply reason_complaint. eapply reasons_split; [exact G|exact E].
    + destruct G as [G1 G2]. destruct (k_recover _); [|discriminate P]. injection P as _ <- _.
      destruct (exists_last (l := e :: after)) as (l' & z & E'); [discriminate|].
      rewrite E' in E. rewrite app_assoc in E. apply app_inj_tail in E as [E Ez]. subst z.
      destruct l' as [|w l']; cbn in E'; injection E' as E0 E'; subst e.
      * now apply panic_complaint.
      * apply reason_complaint. eapply reasons_split; [exact G1|exact E].
    + discriminate P.
  - rewrite H in P. injection P as _ <- _. destruct before as [|b0 before]; [|destruct before; discriminate E]. injection E as <- _.
    apply no_such_rule; [|reflexivity]. intros I. apply in_map_iff in I as ([n e0] & En & I). cbn in En. subst n.
    revert F I. generalize gen_grammar as g. induction g as [|[k e1] g IH]; cbn; [tauto|].
    destruct (String.eqb_spec k (k_entry (config_of opts))) as [->|N]; [discriminate|]. intros F [I|I]; [now injection I|]. auto.
Qed.
Print Assumptions C64_reasons.

(** Without Recover, the panic that leaves Parse has one of these reasons too. *)
Theorem C64_panics : forall opts ff data m ff',
  parse opts ff data = (Panicked m, ff') -> k_recover (config_of opts) = false /\ complaint opts data [] m.
Proof.
  intros opts ff data m ff' P. pose proof (parse_run opts ff data) as H.
  destruct (find_rule (k_entry (config_of opts)) gen_grammar) as [x|] eqn:F; [|rewrite H in P; discriminate P].
  destruct H as (r & R & H). rewrite H in P. destruct (run_typed _ _ _ _ _ _ F R) as (t & _ & G).
  destruct r as [v1 en s|en s|m' y s|]; cbn in P, G; try discriminate P.
  destruct (k_recover _) eqn:K; [discriminate P|]. injection P as <- _. split; [reflexivity|]. now apply panic_complaint.
Qed.
Print Assumptions C64_panics.

(** So the messages that print a Go value are about plugins: the checks of the
    code blocks on the values they are given never fail otherwise. *)
Theorem C64_go_values : forall opts ff data v errs ff' e text x,
  parse opts ff data = (Returned v errs, ff') -> In e errs -> e_msg e = MGo text x ->
  (exists p, x = VPlugin p) \/ (exists e', In e' errs /\ plugin_element (e_msg e')).
Proof.
  intros opts ff data v errs ff' e text x P I E. apply in_split in I as (before & after & I).
  pose proof (C64_reasons _ _ _ _ _ _ _ _ _ P I) as C. rewrite E in C.
  destruct C as [A B|x0 A B|A A' B|A B|what p off after0 A B|pre t post A B C|A|(e' & A & B) C|p A]; try discriminate.
  - right. exists e. split; [|now rewrite E]. rewrite I. apply in_or_app. right. now left.
  - right. exists e'. split; [|exact B]. rewrite I. apply in_or_app. now left.
  - left. exists p. congruence.
Qed.
Print Assumptions C64_go_values.

(** A rejected text has a first error: unless it is about the encoding, a
    number, or a plugin inside an array or a hash, the text does not match the
    grammar or is unfinished (or a limit was reached). *)
Theorem C64_first : forall opts ff data v e errs ff',
  In (k_entry (config_of opts)) (map fst gen_grammar) ->
  k_max (config_of opts) = 0%N -> utf8_text data ->
  parse opts ff data = (Returned v (e :: errs), ff') ->
  (exists expected, e_msg e = MText (b "no match found, expected: " ++ expected)) \/
  (exists what t, In what unfinished /\ e_msg e = MText (t ++ b "-> " ++ b what ++ [NL])) \/
  (exists pre text post, data = pre ++ text ++ post /\ too_large text) \/
  (exists t p, e_msg e = MGo t (VPlugin p)).
Proof.
  intros opts ff data v e errs ff' K M U P.
  destruct (C64_reasons _ _ _ _ _ _ [] e errs P eq_refl) as [A B|x0 A B|A A' B|A B|what p off after0 A B|pre t post A B C|(p & A)|(e' & [] & _) C|p A]; try contradiction.
  - left. eauto.
  - right. left. exists what. eexists. split; [exact A|]. rewrite B. rewrite !app_assoc. reflexivity.
  - right. right. left. eauto.
  - right. right. right. eauto.
  - right. right. right. eauto.
Qed.
Print Assumptions C64_first.

(** Cases: every reason occurs. *)
Definition in_array : bytes := b "input { a { x => [ ""u"", c { } ] } }".
Example C64_case_array : exists e1 e2 v ff, parse [] [] in_array = (Returned v [e1; e2], ff) /\
  plugin_element (e_msg e1) /\ e_msg e2 = MGo (b "Argument is not an attribute: %#v") VNil.
Proof.
  eexists _, _, _, _. split; [vm_compute; reflexivity|]. split; [|reflexivity]. eexists. vm_compute. reflexivity.
Qed.
Definition in_hash : bytes := b "input { a { x => { ""u"" => c { } } } }".
Example C64_case_hash : exists e p ff, parse [] [] in_hash = (Returned VNil [e], ff) /\ e_msg e = MGo (b "interface conversion") (VPlugin p).
Proof. eexists _, _, _. split; vm_compute; reflexivity. Qed.
Definition huge : bytes := [49%N] ++ repeat 48%N 309.
Example C64_case_number : exists e v ff,
  parse [] [] (b "input { a { x => " ++ huge ++ b " } }") = (Returned v [e], ff) /\ too_large huge.
Proof.
  eexists _, _, _. split; [vm_compute; reflexivity|]. apply parse_float_range; [|vm_compute; reflexivity].
  exists [], huge, []. rewrite app_nil_r. repeat split; auto; [discriminate|].
  assert (H : forallb (fun c => (48 <=? c)%N && (c <=? 57)%N) huge = true) by (vm_compute; reflexivity).
  rewrite forallb_forall in H. apply Forall_forall. intros c Hc. specialize (H c Hc). apply andb_true_iff in H as [H1 H2].
  apply N.leb_le in H1, H2. now split.
Qed.
Example C64_case_unfinished : exists e ff, parse [] [] (b "input { a { x => ""u } }") = (Returned VNil [e], ff) /\
  e_msg e = MText (b "Parsing error at pos 1:17 [16] and [17] (after: ' '):" ++ [NL] ++ b "-> expect closing double quotes ("")" ++ [NL]).
Proof. eexists _, _. split; vm_compute; reflexivity. Qed.
Example C64_case_others :
  (exists e ff, parse [] [] (b "inputs") = (Returned VNil [e], ff) /\ exists x, e_msg e = MText (b "no match found, expected: " ++ x)) /\
  (exists e ff, parse [OptEntrypoint "nowhere"] [] (b "input { }") = (Returned VNil [e], ff) /\ e_msg e = MText (b "invalid entrypoint")) /\
  (exists e ff, parse [OptMaxExpressions 5] [] (b "input { }") = (Returned VNil [e], ff) /\ e_msg e = MText (b "max number of expresssions parsed")) /\
  (exists e l v ff, parse [] [] (b "input { # " ++ [255%N; NL] ++ b "}") = (Returned v (e :: l), ff) /\ e_msg e = MText (b "invalid encoding")) /\
  (exists m ff, parse [OptRecover false] [] (b "input { a { x => ""u } }") = (Panicked m, ff)).
Proof.
  split; [|split; [|split; [|split]]].
  - eexists _, _. split; [vm_compute; reflexivity|]. eexists. vm_compute. reflexivity.
  - eexists _, _. split; vm_compute; reflexivity.
  - eexists _, _. split; vm_compute; reflexivity.
  - eexists _, _, _, _. split; vm_compute; reflexivity.
  - eexists _, _. vm_compute. reflexivity.
Qed.

(** ** C65: the kind of value every entry point gives *)

Definition is_plugin (v : val) : Prop := exists p, v = VPlugin p.
Definition is_branch (v : val) : Prop := exists i es e, v = VBranch i es e.
Definition is_array (v : val) : Prop := exists p n l c f, v = VAttr (AtArr p n l c f).
Definition is_hash (v : val) : Prop := exists p n l c f, v = VAttr (AtHash p n l c f).
Definition is_string (v : val) : Prop := exists s, v = VAttr (AtStr s).
Definition is_number (v : val) : Prop := exists n, v = VAttr (AtNum n).
Definition is_expr (v : val) : Prop := exists e, v = VExpr e.
Definition kinds : list (string * (val -> Prop)) :=
  [("init", fun v => exists c, v = VConfig c);
   ("config", fun v => exists c, v = VConfig c);
   ("pluginSection", fun v => exists s, v = VSection s /\ (ps_type s = PTInput \/ ps_type s = PTFilter \/ ps_type s = PTOutput));
   ("branchOrPlugin", fun v => is_plugin v \/ is_branch v);
   ("plugin", is_plugin);
   ("attribute", fun v => is_string v \/ is_number v \/ is_array v \/ is_hash v \/ exists p n x c, v = VAttr (AtPlug p n x c));
   ("value", fun v => is_plugin v \/ is_string v \/ is_number v \/ is_array v \/ is_hash v);
   ("array", is_array); ("hash", is_hash);
   ("hashentries", fun v => exists l, v = VHEntries l);
   ("hashentry", fun v => exists e, v = VHEntry e);
   ("branch", is_branch);
   ("ifCond", fun v => exists x, v = VIf x);
   ("elseIf", fun v => exists x, v = VElseIf x);
   ("elseCond", fun v => exists x, v = VElse x);
   ("condition", fun v => exists c, v = VCond c);
   ("expression", is_expr); ("negativeExpression", is_expr); ("inExpression", is_expr); ("notInExpression", is_expr);
   ("rvalue", fun v => is_string v \/ is_number v \/ is_array v \/ (exists s, v = VSel s) \/ (exists r, v = VRe r));
   ("compareExpression", is_expr); ("regexpExpression", is_expr)]%string.

Ltac pick := first [ now eexists | now eexists _, _ | now eexists _, _, _ | now eexists _, _, _, _ | now eexists _, _, _, _, _
                   | left; pick | right; pick ].
Lemma has_kind L rule K t v : In (rule, K) kinds -> table rule_types rule = Some t -> has L t v -> K v.
Proof.
  intros I T [H _]. unfold kinds in I. cbn [In] in I.
  repeat (destruct I as [I|I]; [injection I as <- <-; vm_compute in T; injection T as <-; cbn [fst] in H;
    destruct H as [H|(_ & H & _)]; [|cbn in H; intuition discriminate];
    destruct v as [| | | | | |pt|a| | | | | | | | | | | | | | | | |s|]; cbn [tag_of] in H;
    try (destruct pt); try (destruct a); try (destruct (ps_type s) eqn:Ps);
    first [exfalso; cbn in H; intuition discriminate | unfold is_plugin, is_branch, is_array, is_hash, is_string, is_number, is_expr; try pick]|]).
  all: try contradiction; try (eexists; split; [reflexivity|]; rewrite Ps; auto).
Qed.

(** Every rule of the grammar is an entry point of the table. *)
Theorem C65_complete : map fst kinds = map fst gen_grammar.
Proof. reflexivity. Qed.

(** Parse with the entry point of a rule returns a value of the kind of the rule
    or, with an error, nothing. *)
Theorem C65_kind : forall opts ff data v errs ff' K,
  In (k_entry (config_of opts), K) kinds -> parse opts ff data = (Returned v errs, ff') ->
  K v \/ (v = VNil /\ errs <> []).
Proof.
  intros opts ff data v errs ff' K I P. pose proof (parse_run opts ff data) as H.
  destruct (find_rule (k_entry (config_of opts)) gen_grammar) as [x|] eqn:F.
  - destruct H as (r & R & H). rewrite H in P. destruct (run_typed _ _ _ _ _ _ F R) as (t & T & G).
    destruct r as [v1 en s|en s|m y s|]; cbn in P, G.
    + injection P as <- _ _. destruct G as [_ G]. left. eapply has_kind; eauto.
    + injection P as <- <- _. right. split; [reflexivity|]. now destruct (s_errs s).
    + destruct (k_recover _); [|discriminate P]. injection P as <- <- _. right. split; [reflexivity|]. now destruct (s_errs s).
    + discriminate P.
  - rewrite H in P. injection P as <- <- _. right. split; [reflexivity|discriminate].
Qed.
Print Assumptions C65_kind.
(** In particular the conversion of the result to a Config, as in the commands,
    cannot fail for an accepted text. *)
Theorem C65_config : forall opts ff data v ff',
  k_entry (config_of opts) = "init"%string \/ k_entry (config_of opts) = "config"%string ->
  parse opts ff data = (Returned v [], ff') -> exists c, v = VConfig c.
Proof.
  intros opts ff data v ff' E P.
  assert (I : In (k_entry (config_of opts), fun v => exists c, v = VConfig c) kinds) by (destruct E as [-> | ->]; cbn; auto).
  destruct (C65_kind _ _ _ _ _ _ _ I P) as [H|[_ H]]; [exact H|congruence].
Qed.
Print Assumptions C65_config.

Example C65_case_array : exists v ff, parse [OptEntrypoint "array"] [] (b "[ 1, ""x"" ]") = (Returned v [], ff) /\ is_array v.
Proof. eexists _, _. split; [vm_compute; reflexivity|]. eexists _, _, _, _, _. reflexivity. Qed.
Example C65_case_condition : exists v ff, parse [OptEntrypoint "condition"] [] (b "[a] == 1 and !([b])") = (Returned v [], ff) /\ exists c, v = VCond c.
Proof. eexists _, _. split; [vm_compute; reflexivity|]. eexists. reflexivity. Qed.
Example C65_case_error : exists v e1 e2 ff, parse [OptEntrypoint "array"] [] (b "[ 1, c { } ]") = (Returned v [e1; e2], ff) /\ is_array v.
Proof. eexists _, _, _, _. split; [vm_compute; reflexivity|]. eexists _, _, _, _, _. reflexivity. Qed.
