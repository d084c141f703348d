(** Correct rounding: [round64] is determined by the interval of reals that
    round to a float.  Specification: [canon], [fval], [in_iv]. *)
From Coq Require Import List NArith ZArith QArith Qpower Lqa Bool Lia.
From Verif Require Import Bytes F64.
Import ListNotations.
Local Open Scope Q_scope.

(** ** Powers *)
Definition p2 (e : Z) : Q := (2 # 1) ^ e.
Definition p10 (e : Z) : Q := (10 # 1) ^ e.
Lemma p2_pos e : 0 < p2 e. Proof. now apply Qpower_0_lt. Qed.
Lemma p10_pos e : 0 < p10 e. Proof. now apply Qpower_0_lt. Qed.
Lemma p2_add a c : p2 (a + c) == p2 a * p2 c. Proof. now apply Qpower_plus. Qed.
Lemma p10_add a c : p10 (a + c) == p10 a * p10 c. Proof. now apply Qpower_plus. Qed.
Lemma p2_Z e : (0 <= e)%Z -> p2 e == inject_Z (2 ^ e). Proof. intros H. unfold p2. rewrite (Zpower_Qpower 2 e H). reflexivity. Qed.
Lemma p10_Z e : (0 <= e)%Z -> p10 e == inject_Z (10 ^ e). Proof. intros H. unfold p10. rewrite (Zpower_Qpower 10 e H). reflexivity. Qed.
Lemma p2_inv e : p2 e * p2 (- e) == 1. Proof. rewrite <- p2_add. now rewrite Z.add_opp_diag_r. Qed.
Lemma p10_inv e : p10 e * p10 (- e) == 1. Proof. rewrite <- p10_add. now rewrite Z.add_opp_diag_r. Qed.
Lemma p2_le a c : (a <= c)%Z -> p2 a <= p2 c. Proof. intros. now apply Qpower_le_compat_l. Qed.
Lemma p10_le a c : (a <= c)%Z -> p10 a <= p10 c. Proof. intros. now apply Qpower_le_compat_l. Qed.
Lemma p2_lt_inv a c : p2 a < p2 c -> (a < c)%Z. Proof. intros. now apply (Qpower_lt_compat_l_inv (2#1)). Qed.
Lemma p10_lt_inv a c : p10 a < p10 c -> (a < c)%Z. Proof. intros. now apply (Qpower_lt_compat_l_inv (10#1)). Qed.
Global Opaque p2 p10.

(** ** Quotients *)
Definition qz (n d : Z) : Q := inject_Z n / inject_Z d.
Lemma inj_pos d : (0 < d)%Z -> 0 < inject_Z d. Proof. intros. change 0 with (inject_Z 0). now rewrite <- Zlt_Qlt. Qed.
Lemma qz_mul n d : (0 < d)%Z -> qz n d * inject_Z d == inject_Z n.
Proof. intros H. pose proof (inj_pos d H). unfold qz. field. lra. Qed.
Lemma qz_le n d x : (0 < d)%Z -> (qz n d <= x <-> inject_Z n <= x * inject_Z d).
Proof. intros H. pose proof (inj_pos d H). pose proof (qz_mul n d H). split; intros L; nra. Qed.
Lemma qz_ge n d x : (0 < d)%Z -> (x <= qz n d <-> x * inject_Z d <= inject_Z n).
Proof. intros H. pose proof (inj_pos d H). pose proof (qz_mul n d H). split; intros L; nra. Qed.
Lemma qz_lt n d x : (0 < d)%Z -> (qz n d < x <-> inject_Z n < x * inject_Z d).
Proof. intros H. pose proof (inj_pos d H). pose proof (qz_mul n d H). split; intros L; nra. Qed.
Lemma qz_gt n d x : (0 < d)%Z -> (x < qz n d <-> x * inject_Z d < inject_Z n).
Proof. intros H. pose proof (inj_pos d H). pose proof (qz_mul n d H). split; intros L; nra. Qed.
Lemma qz_1 n : qz n 1 == inject_Z n. Proof. unfold qz. field. Qed.

Lemma scale2_q n d e n1 d1 : (0 < d)%Z -> scale2 n d e = (n1, d1) -> (0 < d1)%Z /\ qz n1 d1 == qz n d * p2 (- e).
Proof.
  intros Hd. unfold scale2. pose proof (inj_pos d Hd). destruct (Z.ltb_spec e 0) as [L|L]; intros E; inversion E; subst; clear E.
  - split; [exact Hd|]. unfold qz. rewrite inject_Z_mult, <- p2_Z by lia. field. lra.
  - assert (0 < 2 ^ e)%Z by (apply Z.pow_pos_nonneg; lia). split; [nia|].
    pose proof (p2_inv e). pose proof (p2_pos e). unfold qz. rewrite inject_Z_mult, <- p2_Z by lia.
    assert (X : p2 (- e) == / p2 e). { setoid_replace (p2 (- e)) with (p2 e * p2 (-e) * / p2 e) by (field; lra). rewrite H1. ring. }
    rewrite X. field. split; lra.
Qed.
Lemma scale10_q n d e n1 d1 : (0 < d)%Z -> scale10 n d e = (n1, d1) -> (0 < d1)%Z /\ qz n1 d1 == qz n d * p10 e.
Proof.
  intros Hd. unfold scale10. pose proof (inj_pos d Hd). destruct (Z.ltb_spec e 0) as [L|L]; intros E; inversion E; subst; clear E.
  - assert (0 < 10 ^ (- e))%Z by (apply Z.pow_pos_nonneg; lia). split; [nia|].
    pose proof (p10_inv e). pose proof (p10_pos (-e)). unfold qz. rewrite inject_Z_mult, <- p10_Z by lia.
    assert (X : p10 e == / p10 (-e)). { setoid_replace (p10 e) with (p10 e * p10 (-e) * / p10 (-e)) by (field; lra). rewrite H1. ring. }
    rewrite X. field. split; lra.
  - split; [exact Hd|]. unfold qz. rewrite inject_Z_mult, <- p10_Z by lia. field. lra.
Qed.
Lemma frac_q m e n d : frac m e = (n, d) -> (0 < d)%Z /\ qz n d == inject_Z m * p2 e.
Proof.
  unfold frac. destruct (Z.ltb_spec e 0) as [L|L]; intros E; inversion E; subst; clear E.
  - assert (0 < 2 ^ (- e))%Z by (apply Z.pow_pos_nonneg; lia). split; [exact H|]. unfold qz. rewrite <- p2_Z by lia.
    pose proof (p2_inv e). pose proof (p2_pos (-e)).
    assert (X : p2 e == / p2 (-e)). { setoid_replace (p2 e) with (p2 e * p2 (-e) * / p2 (-e)) by (field; lra). rewrite H0. ring. }
    rewrite X. field. lra.
  - split; [lia|]. rewrite qz_1, inject_Z_mult, <- p2_Z by lia. reflexivity.
Qed.

(** ** Rounding to the nearest integer *)
Lemma rhe_spec n d m : (0 < d)%Z -> ((2 * m - 1) * d <= 2 * n <= (2 * m + 1) * d)%Z ->
  (Z.even m = true \/ ((2 * m - 1) * d < 2 * n < (2 * m + 1) * d)%Z) -> rhe n d = m.
Proof.
  intros Hd H S. unfold rhe. pose proof (Z.div_mod n d ltac:(lia)) as E. pose proof (Z.mod_pos_bound n d Hd) as B.
  remember (n / d)%Z as q. remember (n mod d)%Z as r. clear Heqq Heqr.
  assert (C : (m = q \/ m = q + 1)%Z) by nia.
  destruct (Z.ltb_spec (2 * r) d); [destruct C; [lia|nia]|]. destruct (Z.ltb_spec d (2 * r)); [destruct C; [nia|lia]|].
  assert (2 * r = d)%Z by lia. destruct S as [S|S]; [|destruct C; nia].
  destruct C as [-> | ->]; [now rewrite S|]. rewrite Z.even_add in S. cbn in S. destruct (Z.even q); [discriminate|reflexivity].
Qed.
Lemma rhe_q n d m : (0 < d)%Z -> inject_Z m - (1 # 2) <= qz n d <= inject_Z m + (1 # 2) ->
  (Z.even m = true \/ inject_Z m - (1 # 2) < qz n d < inject_Z m + (1 # 2)) -> rhe n d = m.
Proof.
  intros Hd [H1 H2] S. apply qz_ge in H1; [|exact Hd]. apply qz_le in H2; [|exact Hd].
  apply rhe_spec; [exact Hd| |].
  - rewrite !Zle_Qle, !inject_Z_mult. unfold Zminus. rewrite !inject_Z_plus, !inject_Z_mult. change (inject_Z 2) with (2#1). change (inject_Z 1) with 1.
    change (inject_Z (-1)) with (-(1)). change (inject_Z (-(1))) with (-(1)). split; nra.
  - destruct S as [S|[S1 S2]]; [now left|right]. apply qz_gt in S1; [|exact Hd]. apply qz_lt in S2; [|exact Hd].
    rewrite !Zlt_Qlt, !inject_Z_mult. unfold Zminus. rewrite !inject_Z_plus, !inject_Z_mult. change (inject_Z 2) with (2#1). change (inject_Z 1) with 1.
    change (inject_Z (-1)) with (-(1)). change (inject_Z (-(1))) with (-(1)). split; nra.
Qed.
Lemma rhe_bounds n d : (0 < d)%Z -> (n / d <= rhe n d <= n / d + 1)%Z.
Proof. intros. unfold rhe. repeat match goal with |- context [if ?c then _ else _] => destruct c end; lia. Qed.
Lemma rhe_near n d : (0 < d)%Z -> inject_Z (rhe n d) - (1 # 2) <= qz n d <= inject_Z (rhe n d) + (1 # 2).
Proof.
  intros Hd. rewrite qz_le, qz_ge by exact Hd. pose proof (Z.div_mod n d ltac:(lia)) as E. pose proof (Z.mod_pos_bound n d Hd) as B.
  assert (H : ((2 * rhe n d - 1) * d <= 2 * n <= (2 * rhe n d + 1) * d)%Z).
  { unfold rhe. remember (n / d)%Z as q. remember (n mod d)%Z as r. clear Heqq Heqr.
    destruct (Z.ltb_spec (2 * r) d); [nia|]. destruct (Z.ltb_spec d (2 * r)); [nia|]. destruct (Z.even q); nia. }
  remember (rhe n d) as m. clear Heqm. rewrite !Zle_Qle, !inject_Z_mult in H. unfold Zminus in H. rewrite !inject_Z_plus, !inject_Z_mult in H.
  change (inject_Z 2) with (2#1) in H. change (inject_Z 1) with 1 in H. change (inject_Z (-(1))) with (-(1)) in H. split; nra.
Qed.

(** ** Floats and the intervals that round to them *)
Definition fval (m e : Z) : Q := inject_Z m * p2 e.
(** The representation every finite float64 has here *)
Definition canon (m e : Z) : Prop :=
  (m = 0 /\ e = 0)%Z \/ ((0 < m < 2 ^ 53)%Z /\ (-1074 <= e <= 971)%Z /\ ((2 ^ 52 <= m)%Z \/ e = (-1074)%Z)).
(** The half-way points to the neighbours *)
Definition lo (m e : Z) : Q :=
  if ((m =? 2 ^ 52) && negb (e =? -1074))%bool%Z then inject_Z (4 * m - 1) * p2 (e - 2) else inject_Z (2 * m - 1) * p2 (e - 1).
Definition hi (m e : Z) : Q := inject_Z (2 * m + 1) * p2 (e - 1).
Definition in_iv (m e : Z) (x : Q) : Prop :=
  lo m e <= x <= hi m e /\ (Z.even m = true \/ lo m e < x < hi m e).

Lemma log2_q n : (0 < n)%Z -> p2 (Z.log2 n) <= inject_Z n < p2 (Z.log2 n + 1).
Proof.
  intros H. pose proof (Z.log2_spec n H) as [A B]. pose proof (Z.log2_nonneg n). rewrite !p2_Z by lia. rewrite <- Zle_Qle, <- Zlt_Qlt. split; [lia|].
  now rewrite Z.add_1_r.
Qed.
Lemma quot_log2 n d : (0 < n)%Z -> (0 < d)%Z -> p2 (Z.log2 n - Z.log2 d - 1) < qz n d < p2 (Z.log2 n - Z.log2 d + 1).
Proof.
  intros Hn Hd. pose proof (log2_q n Hn) as [A B]. pose proof (log2_q d Hd) as [C D]. rewrite qz_lt, qz_gt by exact Hd.
  remember (Z.log2 n) as a. remember (Z.log2 d) as c. pose proof (p2_pos (a - c - 1)). pose proof (p2_pos (a - c + 1)). split.
  - eapply Qlt_le_trans; [|exact A]. setoid_replace (p2 a) with (p2 (a - c - 1) * p2 (c + 1)); [nra|]. rewrite <- p2_add. now replace (a - c - 1 + (c + 1))%Z with a by lia.
  - eapply Qlt_le_trans; [exact B|]. setoid_replace (p2 (a + 1)) with (p2 (a - c + 1) * p2 c); [nra|]. rewrite <- p2_add. now replace (a - c + 1 + c)%Z with (a + 1)%Z by lia.
Qed.

(** The binary exponent chosen by round64 before clamping *)
Definition bexp (n d : Z) : Z :=
  let e0 := (Z.log2 n - Z.log2 d - 52)%Z in
  let '(n0, d0) := scale2 n d e0 in if (n0 <? d0 * 2 ^ 52)%Z then (e0 - 1)%Z else e0.
Lemma bexp_spec n d : (0 < n)%Z -> (0 < d)%Z -> p2 (bexp n d + 52) <= qz n d < p2 (bexp n d + 53).
Proof.
  intros Hn Hd. pose proof (quot_log2 n d Hn Hd) as [A B]. unfold bexp. remember (Z.log2 n - Z.log2 d)%Z as l. clear Heql.
  destruct (scale2 n d (l - 52)) as [n0 d0] eqn:E. apply scale2_q in E as [P Q]; [|exact Hd].
  assert (X : qz n d == qz n0 d0 * p2 (l - 52)).
  { rewrite Q. rewrite <- Qmult_assoc, (Qmult_comm (p2 _)), p2_inv. ring. }
  assert (Y : p2 l == inject_Z (2 ^ 52) * p2 (l - 52)). { rewrite <- p2_Z by lia. rewrite <- p2_add. now replace (52 + (l - 52))%Z with l by lia. }
  pose proof (p2_pos (l - 52)).
  destruct (Z.ltb_spec n0 (d0 * 2 ^ 52)) as [L|L].
  - replace (l - 52 - 1 + 52)%Z with (l - 1)%Z by lia. replace (l - 52 - 1 + 53)%Z with l by lia. split; [now apply Qlt_le_weak|].
    rewrite X, Y. apply Qmult_lt_r; [assumption|]. rewrite qz_lt by exact P. rewrite <- inject_Z_mult, <- Zlt_Qlt. lia.
  - replace (l - 52 + 52)%Z with l by lia. replace (l - 52 + 53)%Z with (l + 1)%Z by lia. split; [|exact B].
    rewrite X, Y. apply Qmult_le_r; [assumption|]. rewrite qz_ge by exact P. rewrite <- inject_Z_mult, <- Zle_Qle. lia.
Qed.
Lemma bexp_unique x e f : p2 (e + 52) <= x < p2 (e + 53) -> p2 (f + 52) <= x < p2 (f + 53) -> e = f.
Proof.
  intros [A B] [C D]. assert (e + 52 < f + 53)%Z by (apply p2_lt_inv; lra). assert (f + 52 < e + 53)%Z by (apply p2_lt_inv; lra). lia.
Qed.
Lemma p2_half e : p2 (e - 1) * p2 (- e) == 1 # 2.
Proof. rewrite <- p2_add. replace (e - 1 + - e)%Z with (-1)%Z by lia. reflexivity. Qed.
Lemma p2_quarter e : p2 (e - 2) * p2 (- e) == 1 # 4.
Proof. rewrite <- p2_add. replace (e - 2 + - e)%Z with (-2)%Z by lia. reflexivity. Qed.

Ltac inj := unfold Zminus in *; rewrite ?inject_Z_plus, ?inject_Z_mult in *; change (inject_Z 2) with (2#1) in *; change (inject_Z 4) with (4#1) in *;
  change (inject_Z 1) with 1 in *; change (inject_Z (-(1))) with (-(1)) in *.

Lemma round64_unfold n d : (0 < n)%Z ->
  round64 n d = (let e := Z.max (bexp n d) (-1074) in let '(n1, d1) := scale2 n d e in let m := rhe n1 d1 in
    let '(m, e) := if m =? 2 ^ 53 then (2 ^ 52, e + 1) else (m, e) in
    if m =? 0 then Some (0, 0) else if 971 <? e then None else Some (m, e))%Z.
Proof.
  intros H. unfold round64, bexp. destruct (Z.eqb_spec n 0); [lia|]. now destruct (scale2 n d (Z.log2 n - Z.log2 d - 52)).
Qed.
Lemma round64_iv n d m e : (0 < n)%Z -> (0 < d)%Z -> (0 < m)%Z -> canon m e -> in_iv m e (qz n d) -> round64 n d = Some (m, e).
Proof.
  intros Hn Hd Hm C [[L U] S]. destruct C as [C|(Mb & Eb & Mn)]; [lia|].
  rewrite round64_unfold by exact Hn. cbv zeta. pose proof (bexp_spec n d Hn Hd) as B. remember (bexp n d) as g. clear Heqg.
  pose proof (p2_pos (- e)) as Pe. pose proof (p2_half e) as Ph. pose proof (p2_quarter e) as Pq.
  assert (Y : qz n d * p2 (- e) <= inject_Z m + (1 # 2) /\ (Z.even m = true \/ qz n d * p2 (- e) < inject_Z m + (1 # 2))).
  { split; [|destruct S as [S|[_ S]]; [now left|right]].
    - apply (Qmult_le_r _ _ (p2 (-e)) Pe) in U. unfold hi in U. rewrite <- (Qmult_assoc _ (p2 (e - 1))), Ph in U. inj. lra.
    - apply (Qmult_lt_r _ _ (p2 (-e)) Pe) in S. unfold hi in S. rewrite <- (Qmult_assoc _ (p2 (e - 1))), Ph in S. inj. lra. }
  assert (M53 : inject_Z m + 1 <= inject_Z (2 ^ 53)).
  { change 1 with (inject_Z 1). rewrite <- inject_Z_plus, <- Zle_Qle. lia. }
  assert (Up : qz n d * p2 (- e) < p2 53). { rewrite (p2_Z 53) by lia. destruct Y as [Y _]. lra. }
  assert (Ug : (g <= e)%Z).
  { assert (p2 (g + 52) < p2 (e + 53)); [|apply p2_lt_inv in H; lia]. eapply Qle_lt_trans; [apply B|].
    apply (Qmult_lt_r _ _ (p2 (-e)) Pe). rewrite <- p2_add. now replace (e + 53 + - e)%Z with 53%Z by lia. }
  destruct ((m =? 2 ^ 52) && negb (e =? -1074))%bool%Z eqn:Pw.
  - (* power of two, with a closer lower neighbour *)
    apply andb_true_iff in Pw as [P1 P2]. apply Z.eqb_eq in P1. apply negb_true_iff, Z.eqb_neq in P2.
    assert (Lo : inject_Z m - (1 # 4) <= qz n d * p2 (- e)).
    { apply (Qmult_le_r _ _ (p2 (-e)) Pe) in L. unfold lo in L. replace ((m =? 2 ^ 52) && negb (e =? -1074))%bool%Z with true in L by (now rewrite P1; destruct (Z.eqb_spec e (-1074))).
      rewrite <- (Qmult_assoc _ (p2 (e - 2))), Pq in L. inj. lra. }
    destruct (Z.eq_dec g e) as [->|Ng].
    + replace (Z.max e (-1074)) with e by lia. destruct (scale2 n d e) as [n1 d1] eqn:E. apply scale2_q in E as [Pd Q]; [|exact Hd]. cbv beta iota zeta.
      rewrite (rhe_q n1 d1 m); [| exact Pd | rewrite Q; lra | left; now rewrite P1].
      rewrite P1. change (2 ^ 52 =? 2 ^ 53)%Z with false. cbv iota beta. change (2 ^ 52 =? 0)%Z with false. cbv iota. destruct (Z.ltb_spec 971 e); [lia|reflexivity].
    + assert (Eg : g = (e - 1)%Z).
      { apply (bexp_unique (qz n d)); [exact B|]. split.
        - apply (Qmult_le_r _ _ (p2 (-e)) Pe). rewrite <- p2_add. replace (e - 1 + 52 + - e)%Z with 51%Z by lia.
          assert (p2 51 + 1 <= inject_Z m) by (rewrite (p2_Z 51) by lia; change 1 with (inject_Z 1); rewrite <- inject_Z_plus, <- Zle_Qle, P1; lia). lra.
        - replace (e - 1 + 53)%Z with (e + 52)%Z by lia. destruct (Qlt_le_dec (qz n d) (p2 (e + 52))) as [|Ge]; [assumption|]. exfalso.
          apply Ng. apply (bexp_unique (qz n d)); [exact B|]. split; [exact Ge|].
          apply (Qmult_lt_r _ _ (p2 (-e)) Pe). rewrite <- p2_add. now replace (e + 53 + - e)%Z with 53%Z by lia. }
      subst g. replace (Z.max (e - 1) (-1074)) with (e - 1)%Z by lia. destruct (scale2 n d (e - 1)) as [n1 d1] eqn:E. apply scale2_q in E as [Pd Q]; [|exact Hd]. cbv beta iota zeta.
      assert (Q2 : qz n1 d1 == (2 # 1) * (qz n d * p2 (- e))).
      { rewrite Q. replace (- (e - 1))%Z with (- e + 1)%Z by lia. rewrite p2_add. rewrite (p2_Z 1) by lia. change (inject_Z (2 ^ 1)) with (2#1). ring. }
      assert (Um : qz n d * p2 (- e) <= inject_Z m).
      { destruct B as [_ B]. apply Qlt_le_weak in B. apply (Qmult_le_r _ _ (p2 (-e)) Pe) in B. rewrite <- p2_add in B.
        replace (e - 1 + 53 + - e)%Z with 52%Z in B by lia. rewrite (p2_Z 52) in B by lia. now rewrite P1. }
      rewrite (rhe_q n1 d1 (2 * m)%Z); [| exact Pd | rewrite Q2, inject_Z_mult; change (inject_Z 2) with (2#1); lra | left; now rewrite P1].
      rewrite P1. change (2 * 2 ^ 52 =? 2 ^ 53)%Z with true. cbv iota beta. change (2 ^ 52 =? 0)%Z with false. cbv iota.
      replace (e - 1 + 1)%Z with e by lia. destruct (Z.ltb_spec 971 e); [lia|reflexivity].
  - assert (Lo : inject_Z m - (1 # 2) <= qz n d * p2 (- e) /\ (Z.even m = true \/ inject_Z m - (1 # 2) < qz n d * p2 (- e))).
    { unfold lo in *. rewrite Pw in *. split; [|destruct S as [S|[S _]]; [now left|right]].
      - apply (Qmult_le_r _ _ (p2 (-e)) Pe) in L. rewrite <- (Qmult_assoc _ (p2 (e - 1))), Ph in L. inj. lra.
      - apply (Qmult_lt_r _ _ (p2 (-e)) Pe) in S. rewrite <- (Qmult_assoc _ (p2 (e - 1))), Ph in S. inj. lra. }
    assert (Eg : Z.max g (-1074) = e).
    { destruct (Z.eq_dec e (-1074)) as [->|Ne]; [lia|]. assert (2 ^ 52 < m)%Z.
      { destruct (Z.eqb_spec m (2 ^ 52)); [|lia]. destruct (Z.eqb_spec e (-1074)); [lia|discriminate]. }
      assert (g = e); [|lia]. apply (bexp_unique (qz n d)); [exact B|].
      split; apply Qnot_lt_le || idtac.
      - intros X. apply (Qmult_lt_r _ _ (p2 (-e)) Pe) in X. rewrite <- p2_add in X. replace (e + 52 + - e)%Z with 52%Z in X by lia.
        rewrite (p2_Z 52) in X by lia. assert (inject_Z (2 ^ 52) + 1 <= inject_Z m) by (change 1 with (inject_Z 1); rewrite <- inject_Z_plus, <- Zle_Qle; lia).
        destruct Lo as [Lo _]. lra.
      - apply (Qmult_lt_r _ _ (p2 (-e)) Pe). rewrite <- p2_add. now replace (e + 53 + - e)%Z with 53%Z by lia. }
    rewrite Eg. destruct (scale2 n d e) as [n1 d1] eqn:E. apply scale2_q in E as [Pd Q]; [|exact Hd]. cbv beta iota zeta.
    rewrite (rhe_q n1 d1 m); [| exact Pd | rewrite Q; destruct Lo, Y; lra |].
    + destruct (Z.eqb_spec m (2 ^ 53)); [lia|]. destruct (Z.eqb_spec m 0); [lia|]. destruct (Z.ltb_spec 971 e); [lia|reflexivity].
    + rewrite Q. destruct Lo as [_ [Lo|Lo]]; [now left|]. destruct Y as [_ [Y|Y]]; [now left|right; lra].
Qed.

(** ** The result is the correctly rounded value *)
Lemma rhe_full n d : (0 < d)%Z -> let m := rhe n d in
  inject_Z m - (1 # 2) <= qz n d <= inject_Z m + (1 # 2) /\ (Z.even m = true \/ inject_Z m - (1 # 2) < qz n d < inject_Z m + (1 # 2)).
Proof.
  intros Hd m. split; [now apply rhe_near|]. subst m. pose proof (Z.div_mod n d ltac:(lia)) as E. pose proof (Z.mod_pos_bound n d Hd) as B.
  assert (H : Z.even (rhe n d) = true \/ ((2 * rhe n d - 1) * d < 2 * n < (2 * rhe n d + 1) * d)%Z).
  { unfold rhe. remember (n / d)%Z as q. remember (n mod d)%Z as r. clear Heqq Heqr.
    destruct (Z.ltb_spec (2 * r) d); [right; nia|]. destruct (Z.ltb_spec d (2 * r)); [right; nia|]. destruct (Z.even q) eqn:Eq; [now left|].
    left. rewrite Z.even_add, Eq. reflexivity. }
  destruct H as [H|H]; [now left|right]. rewrite qz_lt, qz_gt by exact Hd. rewrite !Zlt_Qlt, !inject_Z_mult in H. inj. split; nra.
Qed.
Lemma rhe_ext n d n' d' : (0 < d)%Z -> (0 < d')%Z -> qz n d == qz n' d' -> rhe n d = rhe n' d'.
Proof. intros H H' E. destruct (rhe_full n' d' H') as [A B]. apply rhe_q; [exact H| |]; rewrite E; assumption. Qed.
Lemma qz_pos n d : (0 < d)%Z -> (0 < n)%Z -> 0 < qz n d.
Proof. intros Hd Hn. rewrite qz_gt by exact Hd. rewrite Qmult_0_l. now apply inj_pos. Qed.
Lemma round64_ext n d n' d' : (0 <= n)%Z -> (0 <= n')%Z -> (0 < d)%Z -> (0 < d')%Z -> qz n d == qz n' d' -> round64 n d = round64 n' d'.
Proof.
  intros Hn Hn' Hd Hd' E.
  destruct (Z.eq_dec n 0) as [->|Nn]; [|destruct (Z.eq_dec n' 0) as [->|Nn']].
  - destruct (Z.eq_dec n' 0) as [->|Nn']; [reflexivity|]. pose proof (qz_pos n' d' Hd' ltac:(lia)). rewrite <- E in H. unfold qz in H. change (inject_Z 0) with 0 in H. unfold Qdiv in H. rewrite Qmult_0_l in H. lra.
  - pose proof (qz_pos n d Hd ltac:(lia)). rewrite E in H. unfold qz in H. change (inject_Z 0) with 0 in H. unfold Qdiv in H. rewrite Qmult_0_l in H. lra.
  - rewrite !round64_unfold by lia. assert (Eb : bexp n d = bexp n' d').
    { apply (bexp_unique (qz n d)); [apply bexp_spec; lia|]. pose proof (bexp_spec n' d' ltac:(lia) Hd') as B. now rewrite <- E in B. }
    rewrite Eb. cbv zeta. remember (Z.max (bexp n' d') (-1074)) as e. clear Heqe Eb.
    destruct (scale2 n d e) as [n1 d1] eqn:E1. destruct (scale2 n' d' e) as [n2 d2] eqn:E2.
    apply scale2_q in E1 as [P1 Q1]; [|exact Hd]. apply scale2_q in E2 as [P2 Q2]; [|exact Hd'].
    rewrite (rhe_ext n1 d1 n2 d2); auto. now rewrite Q1, Q2, E.
Qed.
Lemma round64_sound n d m e : (0 <= n)%Z -> (0 < d)%Z -> round64 n d = Some (m, e) -> canon m e /\ ((0 < m)%Z -> in_iv m e (qz n d)).
Proof.
  intros Hn Hd. destruct (Z.eq_dec n 0) as [->|Nn]; [cbn; inversion 1; subst; split; [left; auto|lia]|].
  rewrite round64_unfold by lia. cbv zeta. pose proof (bexp_spec n d ltac:(lia) Hd) as B. remember (bexp n d) as g. clear Heqg.
  remember (Z.max g (-1074)) as f. destruct (scale2 n d f) as [n1 d1] eqn:E1. apply scale2_q in E1 as [P1 Q1]; [|exact Hd].
  pose proof (p2_pos (- f)) as Pf. pose proof (p2_half f) as Ph. pose proof (rhe_full n1 d1 P1) as R. cbv zeta in R. rewrite Q1 in R.
  assert (U : qz n d * p2 (- f) < inject_Z (2 ^ 53)).
  { rewrite <- p2_Z by lia. destruct B as [_ B]. apply Qlt_le_trans with (p2 (f + 53) * p2 (- f)).
    - apply Qmult_lt_r; [exact Pf|]. apply Qlt_le_trans with (1 := B). apply p2_le. lia.
    - rewrite <- p2_add. replace (f + 53 + - f)%Z with 53%Z by lia. apply Qle_refl. }
  assert (Lg : (-1074 <= g)%Z -> inject_Z (2 ^ 52) <= qz n d * p2 (- f)).
  { intros G. replace f with g by lia. rewrite <- p2_Z by lia. destruct B as [B _]. apply (Qmult_le_r _ _ (p2 (- g))) in B; [|apply p2_pos].
    rewrite <- p2_add in B. now replace (g + 52 + - g)%Z with 52%Z in B by lia. }
  pose proof (qz_pos n d Hd ltac:(lia)) as Xp. assert (Yp : 0 < qz n d * p2 (- f)) by nra.
  remember (qz n d * p2 (- f)) as y. assert (X : qz n d == y * p2 f). { rewrite Heqy. rewrite <- Qmult_assoc, (Qmult_comm (p2 _)), p2_inv. ring. }
  clear Heqy Q1 P1 B. remember (rhe n1 d1) as r. clear Heqr. pose proof (p2_pos f) as Pff. pose proof (p2_pos (f - 1)) as Pf1.
  assert (Pst : p2 f == (2 # 1) * p2 (f - 1)). { replace f with (1 + (f - 1))%Z at 1 by lia. rewrite p2_add, (p2_Z 1) by lia. reflexivity. }
  assert (R53 : (r <= 2 ^ 53)%Z). { destruct R as [[R _] _]. assert (inject_Z r < inject_Z (2 ^ 53 + 1)) by (rewrite inject_Z_plus; change (inject_Z 1) with 1; lra). rewrite <- Zlt_Qlt in H. lia. }
  assert (R0 : (0 <= r)%Z). { destruct R as [[_ R] _]. assert (inject_Z (-1) < inject_Z r) by (change (inject_Z (-1)) with (-(1)); lra). rewrite <- Zlt_Qlt in H. lia. }
  destruct (Z.eqb_spec r (2 ^ 53)) as [->|Nr].
  - change (2 ^ 52 =? 0)%Z with false. cbv iota. destruct (Z.ltb_spec 971 (f + 1)); [discriminate|]. intros Eq. assert (m = (2 ^ 52)%Z /\ e = (f + 1)%Z) as [-> ->] by (split; congruence). split; [right; lia|]. intros _.
    unfold in_iv, lo, hi. rewrite Z.eqb_refl. destruct (Z.eqb_spec (f + 1) (-1074)); [lia|]. change (true && negb false)%bool with true. cbv iota.
    replace (f + 1 - 2)%Z with (f - 1)%Z by lia. replace (f + 1 - 1)%Z with f by lia. split; [|now left]. rewrite X. destruct R as [[R1 R2] _]. split.
    + change (inject_Z (4 * 2 ^ 52 - 1)) with ((2#1) * inject_Z (2 ^ 53) - 1). clear - R1 Pst Pf1. remember (inject_Z (2 ^ 53)) as w.
      assert (K1 : y * p2 f == (2#1) * (y * p2 (f - 1))) by (rewrite Pst; ring).
      assert (K2 : 0 <= (y - (w - (1 # 2))) * p2 (f - 1)) by (apply Qmult_le_0_compat; lra). lra.
    + change (inject_Z (2 * 2 ^ 52 + 1)) with (inject_Z (2 ^ 53) + 1). nra.
  - destruct (Z.eqb_spec r 0) as [->|N0]; [inversion 1; subst; split; [left; auto|lia]|]. destruct (Z.ltb_spec 971 f); [discriminate|]. inversion 1; subst m e. split.
    + right. split; [lia|]. split; [lia|]. destruct (Z.eq_dec f (-1074)) as [|Nf]; [now right|left]. specialize (Lg ltac:(lia)). destruct R as [[_ R] _].
      assert (Hx : inject_Z (2 ^ 52 - 1) < inject_Z r). { change (inject_Z (2 ^ 52 - 1)) with (inject_Z (2 ^ 52) - 1). lra. } rewrite <- Zlt_Qlt in Hx. lia.
    + intros _. unfold in_iv, hi. destruct R as [[R1 R2] R3].
      assert (Hh : y * p2 f <= inject_Z (2 * r + 1) * p2 (f - 1) /\ (y < inject_Z r + (1 # 2) -> y * p2 f < inject_Z (2 * r + 1) * p2 (f - 1))).
      { rewrite Pst. inj. split; [|intros]; nra. }
      unfold lo. destruct ((r =? 2 ^ 52) && negb (f =? -1074))%bool%Z eqn:Pw.
      * apply andb_true_iff in Pw as [P1 P2]. apply Z.eqb_eq in P1. apply negb_true_iff, Z.eqb_neq in P2. specialize (Lg ltac:(lia)).
        assert (Hl : inject_Z (4 * r - 1) * p2 (f - 2) < y * p2 f).
        { assert (Pst2 : p2 (f - 1) == (2 # 1) * p2 (f - 2)). { replace (f - 1)%Z with (1 + (f - 2))%Z at 1 by lia. rewrite p2_add, (p2_Z 1) by lia. reflexivity. }
          pose proof (p2_pos (f - 2)). rewrite Pst, Pst2, P1. change (inject_Z (4 * 2 ^ 52 - 1)) with ((4#1) * inject_Z (2 ^ 52) - 1). nra. }
        rewrite X. split; [split; [lra|tauto]|left; now rewrite P1].
      * assert (Hl : inject_Z (2 * r - 1) * p2 (f - 1) <= y * p2 f /\ (inject_Z r - (1 # 2) < y -> inject_Z (2 * r - 1) * p2 (f - 1) < y * p2 f)).
        { rewrite Pst. inj. split; [|intros]; nra. }
        rewrite X. split; [tauto|]. destruct R3 as [R3|R3]; [now left|right; tauto].
Qed.
