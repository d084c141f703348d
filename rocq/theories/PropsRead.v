(** C41: the elements of arrays. *)
From Coq Require Import List NArith Bool String Arith Lia.
From Verif Require Import Bytes Utf8 F64 Ast Peg Actions Engine Parser GrammarGen PosFacts PegSem LexFacts ArrayFacts.
Import ListNotations.

(** ** C41 *)
(** Whenever the array rule of the grammar (C43 says what Parse has to do with
    these derivations) accepts the text from [p] to [q], that text is an opening
    bracket, the values [ws] separated by commas, and a closing bracket ([array_at],
    ArrayFacts.v), and the array of the tree holds exactly these values in this
    order - except that a plugin in the first place is dropped ([kept]).
    Missing to the full claim: that plugin. *)
Theorem C41_array_elements_partial : forall ign p v en q,
  peg ign gen_grammar (ERef "array") [] p (POk v en q) ->
  exists ws l f, array_at ign p ws q /\ v = VAttr (AtArr zero_pos [] l [] f) /\ Forall2 same_value (kept ws) l.
Proof. exact array_elements. Qed.
Print Assumptions C41_array_elements_partial.
(** Without a plugin in the first place: nothing is lost. *)
Theorem C41_no_plugin_partial : forall ign p v en q,
  peg ign gen_grammar (ERef "array") [] p (POk v en q) ->
  exists ws l f, array_at ign p ws q /\ v = VAttr (AtArr zero_pos [] l [] f) /\
    ((exists x ws', ws = VPlugin x :: ws') \/ (Forall2 same_value ws l /\ List.length ws = List.length l)).
Proof.
  intros ign p v en q H. destruct (array_elements _ _ _ _ _ H) as (ws & l & f & A & E & F). exists ws, l, f. split; [exact A|]. split; [exact E|].
  assert (G : forall xs ys, Forall2 same_value xs ys -> List.length xs = List.length ys) by (induction 1; cbn; congruence).
  destruct ws as [|w ws]; [right; split; [exact F|now inversion F]|]. destruct w; try (right; split; [exact F|exact (G _ _ F)]). left. eauto.
Qed.
Print Assumptions C41_no_plugin_partial.
(** The full claim is false: [[ foo { } , 1 ]] is accepted and becomes [[ 1 ]]. *)
Definition the_array (c : config) : list attr :=
  match cf_input c with
  | [Section_ _ _ [BPlugin (Plugin _ _ [AtArr _ _ l _ _] _ _)] _ _] => l
  | _ => []
  end.
Theorem C41_refuted : exists c ff,
  parse [] [] (b "input { x { a => [ foo { } , 12 ] } }") = (Returned (VConfig c) [], ff) /\
  List.length (the_array c) = 1 /\
  exists c2 ff2, parse [] [] (b "input { x { a => [ 12 ] } }") = (Returned (VConfig c2) [], ff2) /\ the_array c = the_array c2.
Proof. eexists _, _. split; [vm_compute; reflexivity|]. split; [vm_compute; reflexivity|]. eexists _, _. split; vm_compute; reflexivity. Qed.
Print Assumptions C41_refuted.
Example C41_case : exists c ff, parse [] [] (b "input { x { a => [ 12 , foo, 'x', [ ], { } ] } }") = (Returned (VConfig c) [], ff) /\ List.length (the_array c) = 5.
Proof. eexists _, _. split; vm_compute; reflexivity. Qed.
