(** Decimal numerals: [itoa] is injective and its output consists of digits. *)
From Coq Require Import List NArith ZArith Bool String Arith Lia ZifyN.
From Verif Require Import Bytes.
Import ListNotations.
Local Open Scope N_scope.
Ltac Zify.zify_post_hook ::= Z.div_mod_to_equations.

(** The number a list of digits denotes *)
Definition dec_step (a c : N) : N := a * 10 + (c - 48).
Definition dec_val (s : bytes) : N := fold_left dec_step s 0.

Lemma itoa_N_val n : dec_val (itoa_N n) = n.
Proof.
  unfold itoa_N, dec_val. destruct (N.eq_dec n 0) as [->|H]; [reflexivity|].
  assert (E : forall k acc, n < 2 ^ N.of_nat k -> k <> O -> fold_left dec_step (digits_fuel k n acc) 0 = fold_left dec_step acc n).
  { intros k. revert H. revert n. induction k as [|k IH]; intros n H acc Hn Hk; [congruence|].
    cbn [digits_fuel]. destruct (N.ltb_spec n 10) as [L|L].
    - cbn [fold_left]. f_equal. unfold dec_step. rewrite (N.mod_small n 10) by exact L. lia.
    - rewrite IH.
      + cbn [fold_left]. f_equal. unfold dec_step. pose proof (N.div_mod' n 10). lia.
      + intros E. apply N.div_small_iff in E; lia.
      + rewrite Nat2N.inj_succ, N.pow_succ_r' in Hn. apply N.div_lt_upper_bound; lia.
      + destruct k; [cbn in Hn; lia|discriminate]. }
  rewrite E; [reflexivity| |discriminate].
  rewrite Nat2N.inj_succ, N2Nat.id. apply N.log2_spec. lia.
Qed.
Lemma itoa_N_inj n m : itoa_N n = itoa_N m -> n = m.
Proof. intros H. rewrite <- (itoa_N_val n), <- (itoa_N_val m). now rewrite H. Qed.
Lemma itoa_inj n m : itoa n = itoa m -> n = m.
Proof. intros H. apply itoa_N_inj in H. lia. Qed.

Lemma digits_fuel_digit k n acc : Forall (fun c => is_digit c = true) acc -> Forall (fun c => is_digit c = true) (digits_fuel k n acc).
Proof.
  revert n acc. induction k as [|k IH]; intros n acc H; cbn; [exact H|].
  assert (D : is_digit (48 + n mod 10) = true).
  { unfold is_digit. apply andb_true_iff. rewrite !N.leb_le. lia. }
  destruct (n <? 10); [|apply IH]; constructor; auto.
Qed.
Lemma itoa_N_digit n : Forall (fun c => is_digit c = true) (itoa_N n).
Proof. apply digits_fuel_digit. constructor. Qed.
Lemma itoa_digit n : Forall (fun c => is_digit c = true) (itoa n).
Proof. apply itoa_N_digit. Qed.
Lemma itoa_N_nonempty n : itoa_N n <> [].
Proof.
  unfold itoa_N. assert (K : forall k m acc, acc <> [] -> digits_fuel k m acc <> []).
  { intros k. induction k; intros m acc H; cbn; [exact H|]. destruct (m <? 10); [discriminate|]. apply IHk. discriminate. }
  cbn [digits_fuel]. destruct (n <? 10); [discriminate|]. apply K. discriminate.
Qed.

(** Splitting at the first non-digit *)
Lemma digits_sep x y c r r' : Forall (fun c => is_digit c = true) x -> Forall (fun c => is_digit c = true) y -> is_digit c = false ->
  x ++ c :: r = y ++ c :: r' -> x = y /\ r = r'.
Proof.
  intros Hx. revert y. induction Hx as [|d x Hd Hx IH]; intros y Hy Hc E.
  - destruct y as [|d y]; cbn in E; [inversion E; auto|]. inversion E; subst. inversion Hy; congruence.
  - destruct y as [|d' y]; cbn in E; [inversion E; congruence|]. inversion E; subst. inversion Hy; subst.
    destruct (IH y H3 Hc H1) as [-> ->]. auto.
Qed.
