(** C49, C50: the Memoize option. *)
From Coq Require Import List NArith Bool String Arith Lia.
From Verif Require Import Bytes Utf8 F64 Ast Peg Actions Engine Parser GrammarGen LimitFacts Memo MemoFacts.
Import ListNotations.

(** ** C49: Memoize makes the work linear in the length of the text

    logstash_config.go:11930: "cache all results so each expression is evaluated
    only once.  This guarantees linear parsing time".

    The work is what MaxExpressions limits: with Memoize, a limit of (number of
    nodes of the grammar) * (length of the text + 1) is never reached, whatever the
    text and the other options. *)
Definition expressions_in_grammar : nat := List.length (all_nodes gen_grammar).

Theorem C49_linear : forall n opts ff data,
  (N.of_nat (expressions_in_grammar * (List.length data + 1)) <= n)%N ->
  parse_memo (opts ++ [OptMaxExpressions n]) ff data = parse_memo (opts ++ [OptMaxExpressions 0]) ff data.
Proof.
  intros n opts ff data H. apply parse_memo_limit.
  assert (E : grammar_nodes = expressions_in_grammar) by (vm_compute; reflexivity).
  rewrite E. lia.
Qed.
Print Assumptions C49_linear.

Theorem C49_terminates : forall opts ff data, fst (parse_memo opts ff data) <> Diverged.
Proof. exact parse_memo_terminates. Qed.
Print Assumptions C49_terminates.

Example C49_grammar_size : expressions_in_grammar = 1785.
Proof. vm_compute. reflexivity. Qed.

(** the limit is met by the parse of a non-trivial text, and a limit below the work is reached *)
Definition memo_text : bytes := b "filter { if [1, ""b""] == 1 or [x] in [y] { aa { bb => [ 5, { ""k"" => cc } ] } } }".
Example C49_linear_case :
  (N.of_nat (expressions_in_grammar * (List.length memo_text + 1)) <= 150000)%N /\
  fst (parse_memo [OptMaxExpressions 150000] [] memo_text) = fst (parse [] [] memo_text) /\
  (exists v, fst (parse [] [] memo_text) = Returned v []) /\
  exists p rule, fst (parse_memo [OptMaxExpressions 1000] [] memo_text) = Returned VNil [PError p (Some rule) max_expr_msg].
Proof.
  split; [vm_compute; discriminate|]. split; [vm_compute; reflexivity|]. split; [eexists; vm_compute; reflexivity|].
  eexists _, _. vm_compute. reflexivity.
Qed.

(** ** C50: Memoize changes nothing but the time

    This is false: a result taken from the cache does not
    add its warnings again, so with ExceptionalCommentsWarning the comment in this
    array of a condition is warned about without Memoize and not with it. *)
Definition memo_warn_text : bytes := b "filter { if [""a"" # c" ++ [NL] ++ b ", ""b""] == 1 { } }".
Theorem C50_refuted :
  exists opts data c c', parse opts [] data = (Returned (VConfig c) [], snd (parse opts [] data)) /\
    parse_memo opts [] data = (Returned (VConfig c') [], snd (parse_memo opts [] data)) /\
    cf_warnings c = [b "exceptional comment at 1:17 [16]"] /\ cf_warnings c' = [].
Proof.
  exists [OptExceptionalCommentsWarning true], memo_warn_text. 
  destruct (parse [OptExceptionalCommentsWarning true] [] memo_warn_text) as [r ff] eqn:E.
  destruct (parse_memo [OptExceptionalCommentsWarning true] [] memo_warn_text) as [r' ff'] eqn:E'.
  vm_compute in E. vm_compute in E'. injection E as <- _. injection E' as <- _.
  eexists _, _. repeat split.
Qed.
Print Assumptions C50_refuted.

(** ... and the errors of a text with errors are not all repeated: *)
Definition error_count (r : result) : nat := match r with Returned _ errs => List.length errs | _ => 0 end.
Definition memo_error_text : bytes := b "filter { if [1, aa {}] == 1 { } }".
Theorem C50_errors_refuted :
  exists data, error_count (fst (parse [] [] data)) = 6 /\ error_count (fst (parse_memo [] [] data)) = 2.
Proof. exists memo_error_text. split; vm_compute; reflexivity. Qed.
Print Assumptions C50_errors_refuted.
