(** The relation of PegSem.v is a function: an expression has one result at one place. *)
From Coq Require Import List NArith Bool String Arith Lia.
From Verif Require Import Bytes Utf8 Ast Peg Actions Engine Parser PosFacts PegSem.
Import ListNotations.
Section Det.
  Variable ign : bool.
  Variable g : grammar.
  Theorem peg_det_all :
    (forall e en p r, peg ign g e en p r -> forall r', peg ign g e en p r' -> r' = r) /\
    (forall es en p r, pegs ign g es en p r -> forall r', pegs ign g es en p r' -> r' = r) /\
    (forall e p r, pegt ign g e p r -> forall r', pegt ign g e p r' -> r' = r).
  Proof.
    apply peg_mutind; intros;
    match goal with H : peg _ _ _ _ _ ?r' |- ?r' = _ => inversion H; subst; clear H
                  | H : pegs _ _ _ _ _ ?r' |- ?r' = _ => inversion H; subst; clear H
                  | H : pegt _ _ _ _ ?r' |- ?r' = _ => inversion H; subst; clear H end;
    repeat match goal with K : _ = PFail \/ _ = PAbort |- _ => destruct K; subst end;
    try match goal with A : find_rule ?n g = Some ?x, B : find_rule ?n g = Some ?y |- _ => assert (x = y) by congruence; subst; clear B end;
    try match goal with K : pt_rest _ = [] \/ _ |- _ => destruct K end;
    try reflexivity; try congruence; try contradiction;
    repeat match goal with
    | IH : forall r', peg _ _ ?e ?en ?p r' -> r' = _, H : peg _ _ ?e ?en ?p _ |- _ => pose proof (IH _ H); clear H; try discriminate; try (match goal with K : POk _ _ _ = POk _ _ _ |- _ => injection K; intros; clear K; subst end)
    | IH : forall r', pegs _ _ ?e ?en ?p r' -> r' = _, H : pegs _ _ ?e ?en ?p _ |- _ => pose proof (IH _ H); clear H; try discriminate; try (match goal with K : POk _ _ _ = POk _ _ _ |- _ => injection K; intros; clear K; subst end)
    | IH : forall r', pegt _ _ ?e ?p r' -> r' = _, H : pegt _ _ ?e ?p _ |- _ => pose proof (IH _ H); clear H; try discriminate; try (match goal with K : Some _ = Some _ |- _ => injection K; intros; clear K; subst end)
    end; try reflexivity; try congruence; try contradiction.
  Qed.
  Corollary peg_det e en p r r' : peg ign g e en p r -> peg ign g e en p r' -> r' = r.
  Proof. intros H. exact (proj1 peg_det_all e en p r H r'). Qed.
End Det.
