(** Properties of error reports: C51, C52.  Specifications: PosFacts.v
    ([true_pos]), ErrFacts.v ([quotes]), ExpectFacts.v ([expectation], [ble]). *)
From Coq Require Import List NArith ZArith Bool String Arith Lia Sorting.Sorted.
From Verif Require Import Bytes Utf8 F64 Ast Peg Actions Engine Parser GrammarGen QuoteFacts PosFacts Run EngineFacts
  Termination Matches RunInv Sim HistFacts ParseFacts ErrFacts ExpectFacts.
Import ListNotations.

Definition rule_names : list string := map fst gen_grammar.

(** ** C51: errors and recorded failures point into the text *)

(** Every error of a parse carries a right position (line, column and offset of
    a place of the input) and names a rule of the grammar; the one exception is
    described exactly: *)
Theorem C51_error_positions : forall opts ff data v errs ff' e,
  In (k_entry (config_of opts)) rule_names ->
  parse opts ff data = (Returned v errs, ff') -> In e errs ->
  p_off (e_pos e) <= List.length data /\
  (true_pos data (e_pos e) \/
   (e_pos e = Pos 1 1 0 /\ (exists rest, data = NL :: rest) /\ k_entry (config_of opts) <> "init"%string)) /\
  (forall r, e_rule e = Some r -> In r rule_names).
Proof.
  intros opts ff data v errs ff' e He P H. destruct (parse_errors opts ff data v errs ff' e He P H) as [A B].
  split; [|now split]. destruct A as [[A _]|(-> & _)]; [exact A|cbn; lia].
Qed.
Print Assumptions C51_error_positions.
(** With the default entry point there is no exception. *)
Theorem C51_default_entry : forall opts ff data v errs ff' e,
  k_entry (config_of opts) = "init"%string ->
  parse opts ff data = (Returned v errs, ff') -> In e errs -> true_pos data (e_pos e).
Proof.
  intros opts ff data v errs ff' e He P H.
  assert (Hi : In (k_entry (config_of opts)) rule_names) by (rewrite He; now left).
  destruct (C51_error_positions opts ff data v errs ff' e Hi P H) as (_ & [A|(_ & _ & A)] & _); [exact A|contradiction].
Qed.
Print Assumptions C51_default_entry.
(** The exception exists: a text that starts with a line feed, another entry point. *)
Theorem C51_exception : exists opts data e ff,
  parse opts [] data = (Returned VNil [e], ff) /\ ~ true_pos data (e_pos e).
Proof.
  exists [OptEntrypoint "pluginType"], [NL].
  eexists _, _. split; [vm_compute; reflexivity|]. cbn [e_pos]. intros (_ & k & l & m & R & L & _).
  cbn [p_off p_line] in *. remember 0 as z eqn:Ez in R.
  destruct R as [|k off l R Hoff].
  - cbn in L. discriminate L.
  - cbn in Hoff. assert (off = 0) by lia. subst off. cbn in Ez. discriminate Ez.
Qed.
Print Assumptions C51_exception.
(** GetFarthestFailure after a parse with the default entry point (and no limit
    of 1, 2 or 3 expressions): every recorded failure quotes this parse's input. *)
Theorem C51_record : forall opts ff data f,
  k_entry (config_of opts) = "init"%string -> (k_max (config_of opts) = 0 \/ 4 <= k_max (config_of opts))%N ->
  In f (snd (parse opts ff data)) -> quotes data f.
Proof.
  intros opts ff data f He Hm H. rewrite (parse_history opts ff [] data He) in H.
  - apply parse_record in H as [[]|H]. exact H.
  - unfold resets_record. destruct Hm as [->|Hm]; [reflexivity|]. apply orb_true_iff. right. now apply N.leb_le.
Qed.
Print Assumptions C51_record.
(** After any sequence of parses with any options every recorded failure quotes
    the input of one of them. *)
Theorem C51_history : forall history f, In f (record_after history) ->
  exists opts data, In (opts, data) history /\ quotes data f.
Proof. exact history_record. Qed.
Print Assumptions C51_history.
(** What GetFarthestFailure prints: line, column and offset of the quoted text,
    the offset of its end, and the text with line feeds shown as \n. *)
Theorem C51_text : forall opts ff data t,
  k_entry (config_of opts) = "init"%string -> (k_max (config_of opts) = 0 \/ 4 <= k_max (config_of opts))%N ->
  farthest_failure (snd (parse opts ff data)) = Some t ->
  exists pre text post line col rest,
    data = pre ++ text ++ post /\
    (true_pos data (Pos line col (List.length pre)) \/ (line = 0 /\ col = 0 /\ pre = [] /\ text = [])) /\
    t = b "Parsing error at pos " ++ itoa line ++ b ":" ++ itoa col ++ b " [" ++ itoa (List.length pre) ++ b "] and ["
        ++ itoa (List.length (pre ++ text)) ++ b "] (after: '" ++ flat_map (fun c => if (c =? NL)%N then b "\n" else [c]) text ++ b "'):" ++ [NL] ++ rest.
Proof.
  intros opts ff data t He Hm H. pose proof (C51_record opts ff data) as Q.
  destruct (snd (parse opts ff data)) as [|f l]; [discriminate H|].
  specialize (Q f He Hm (or_introl eq_refl)). destruct Q as (Q1 & (post & Q2 & Q3) & Q4).
  assert (L : List.length (firstn (p_off (f_cpos f)) data) = p_off (f_cpos f)).
  { rewrite firstn_length. lia. }
  exists (firstn (p_off (f_cpos f)) data), (f_text f), post, (p_line (f_cpos f)), (p_col (f_cpos f)), (flat_map (fun x => failure_line (f_msg x)) (f :: l)).
  split; [exact Q2|]. rewrite app_length, L. split.
  - destruct Q4 as [Q4|[Q4 Q5]]; [left|right].
    + destruct (f_cpos f); exact Q4.
    + rewrite Q4. repeat split; auto.
  - assert (Et : t = failure_head (f_cpos f) (f_off f) (f_text f) ++ flat_map (fun x => failure_line (f_msg x)) (f :: l)) by (unfold farthest_failure in H; congruence).
    rewrite Et. unfold failure_head, position_string. rewrite Q1.
    assert (S : show_newline (f_text f) = flat_map (fun c => if (c =? NL)%N then b "\n" else [c]) (f_text f)).
    { reflexivity. }
    rewrite S. change (b "] and [") with (b "]" ++ b " and ["). rewrite <- !app_assoc. reflexivity.
Qed.
Print Assumptions C51_text.
Example C51_case : exists e ff, parse [] [] (b "input {" ++ [NL] ++ b " stdin { id => } }") = (Returned VNil [e], ff)
  /\ e_pos e = Pos 2 10 17 /\ e_rule e = Some "plugin"%string /\ exists f, ff = [f] /\ f_text f = b " " /\ f_cpos f = Pos 2 9 16 /\ f_off f = 17.
Proof. eexists _, _. vm_compute. repeat split. eexists. repeat split. Qed.

(** ** C52: the texts of errors *)

(** An error that is not about the encoding and names no rule: it is the only
    one, nothing was returned, and its text lists what was expected at its
    position.  Every item is a literal or class of the grammar that does not
    match the text at that position or, after an exclamation mark, one that does
    and must not (EOF: there is more text); with the default entry point there
    is at least one. *)
Theorem C52_no_match : forall opts ff data v errs ff' e,
  In (k_entry (config_of opts)) rule_names ->
  parse opts ff data = (Returned v errs, ff') -> In e errs ->
  e_rule e = None -> e_msg e <> MText (b "invalid encoding") ->
  v = VNil /\ errs = [e] /\
  exists items eof,
    e_msg e = MText (b "no match found, expected: " ++ list_join (items ++ (if eof : bool then [b "EOF"] else []))) /\
    NoDup items /\ LocallySorted ble items /\
    (forall w, In w items -> expectation gen_grammar data (p_off (e_pos e)) w) /\
    (eof = true -> p_off (e_pos e) < List.length data) /\
    (k_entry (config_of opts) = "init"%string -> items <> [] \/ eof = true).
Proof.
  intros opts ff data v errs ff' e He P H Hr Hm.
  destruct (parse_no_match opts ff data v errs ff' e He P H Hr Hm) as (-> & E & ws & Em & X & Nn).
  split; [reflexivity|]. split; [exact E|].
  destruct (no_match_items ws) as (l & L1 & L2 & L3 & L4).
  exists l, (existsb (beqb (b "!.")) ws). rewrite Em, L1. split; [reflexivity|]. split; [exact L2|]. split; [exact L3|].
  rewrite Forall_forall in X. split; [intros w Hw; apply X; now apply L4|]. split.
  - intros K. apply existsb_exists in K as (w & Hw & Ew). apply beqb_true in Ew. subst w.
    destruct (X _ Hw) as (t & d & Ht & Hd & [[Ed _]|[Ed Hb]]).
    + exfalso. assert (A : forallb (fun t => match display t with Some d => negb (beqb (b "!.") (b d)) | None => true end) (grammar_terms gen_grammar) = true) by (vm_compute; reflexivity).
      rewrite forallb_forall in A. specialize (A t Ht). rewrite Hd, <- Ed in A. vm_compute in A. discriminate A.
    + destruct (Nat.lt_ge_cases (p_off (e_pos e)) (List.length data)) as [Q|Q]; [exact Q|exfalso].
      rewrite skipn_all2 in Hb by exact Q.
      assert (A : forallb (fun t => match display t with Some d => negb (beqb (b ".") (b d)) || match t with EAny => true | _ => false end | None => true end) (grammar_terms gen_grammar) = true) by (vm_compute; reflexivity).
      rewrite forallb_forall in A. specialize (A t Ht). rewrite Hd in A.
      assert (Ed2 : b "." = b d) by (apply (f_equal (@tl N)) in Ed; exact Ed).
      rewrite <- Ed2 in A. destruct t; try (vm_compute in A; discriminate A). now apply Hb.
  - intros Hi. specialize (Nn Hi). destruct ws as [|w ws]; [congruence|].
    destruct (list_eq_dec N.eq_dec w (b "!.")) as [->|D]; [right; reflexivity|left].
    intros ->. apply (in_nil (a := w)). apply L4. split; [now left|exact D].
Qed.
Print Assumptions C52_no_match.
(** The list is written with commas and a final "or". *)
Theorem C52_list : forall l x,
  list_join [] = [] /\ list_join [x] = x /\ (l <> [] -> list_join (l ++ [x]) = join (b ", ") l ++ b " or " ++ x).
Proof.
  intros l x. split; [reflexivity|]. split; [reflexivity|]. intros H. unfold list_join. rewrite rev_unit.
  destruct (rev l) as [|y r] eqn:E; [exfalso; apply H; rewrite <- (rev_involutive l), E; reflexivity|].
  rewrite <- E, rev_involutive. reflexivity.
Qed.
Print Assumptions C52_list.
(** The text of the returned error: the texts of all errors, each once, in the
    order in which they first occurred, one after the other. *)
Theorem C52_errors_once : forall gofmt filename errs, exists l,
  errors_text gofmt filename errs = join [NL] l /\ NoDup l /\
  (forall t, In t l <-> exists e, In e errs /\ t = error_text gofmt filename e) /\
  (forall pre t post, l = pre ++ t :: post -> exists before e after, errs = before ++ e :: after /\
     t = error_text gofmt filename e /\
     (forall e', In e' before -> In (error_text gofmt filename e') pre) /\
     (forall u, In u pre -> exists e', In e' before /\ u = error_text gofmt filename e')).
Proof.
  intros gofmt filename errs. exists (dedupe [] (map (error_text gofmt filename) errs)). split; [reflexivity|].
  split; [apply dedupe_nodup|]. split.
  - intros t. rewrite dedupe_in, in_map_iff. cbn. split.
    + intros [(e & <- & H) _]. eauto.
    + intros (e & H & ->). split; [eauto|auto].
  - intros pre t post E. destruct (dedupe_first _ _ _ _ _ E) as (l1 & l2 & El & N & A & C).
    assert (M : forall es l1, map (error_text gofmt filename) es = l1 ++ t :: l2 ->
      exists before e after, es = before ++ e :: after /\ t = error_text gofmt filename e /\ map (error_text gofmt filename) before = l1).
    { induction es as [|x es IH]; intros k Ek; [destruct k; discriminate Ek|]. destruct k as [|y k]; cbn in Ek; injection Ek as E1 E2.
      - exists [], x, es. repeat split; auto.
      - destruct (IH k E2) as (bf & e & af & -> & H1 & H2). exists (x :: bf), e, af. cbn. rewrite H2, E1. repeat split; auto. }
    destruct (M errs l1 El) as (bf & e & af & -> & Ht & Hb). exists bf, e, af. split; [reflexivity|]. split; [exact Ht|]. split.
    + intros e' He'. assert (K : In (error_text gofmt filename e') l1) by (rewrite <- Hb; now apply in_map).
      destruct (C _ K) as [[]|K2]. exact K2.
    + intros u Hu. apply A in Hu. rewrite <- Hb in Hu. apply in_map_iff in Hu as (e' & <- & He'). eauto.
Qed.
Print Assumptions C52_errors_once.
(** Each text: the file name if there is one, line, column, offset, the rule, the message. *)
Theorem C52_one_error : forall gofmt filename line col off rule m,
  error_text gofmt filename (PError (Pos line col off) rule m) =
    (if Nat.eqb (List.length filename) 0 then [] else filename ++ b ":") ++
    itoa line ++ b ":" ++ itoa col ++ b " (" ++ itoa off ++ b ")" ++
    (match rule with Some r => b ": rule " ++ b r | None => [] end) ++ b ": " ++ msg_text gofmt m.
Proof. intros gofmt [|c f] line col off [r|] m; reflexivity. Qed.
Print Assumptions C52_one_error.
Example C52_case : exists e ff, parse [] [] (b "inputx { }") = (Returned VNil [e], ff) /\ e_rule e = None /\ e_pos e = Pos 1 6 5.
Proof. eexists _, _. vm_compute. repeat split. Qed.
