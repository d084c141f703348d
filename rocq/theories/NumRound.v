(** Numbers survive printing (C39, C40). *)
From Coq Require Import List NArith ZArith QArith Qpower Lqa Bool String Lia ZifyN.
From Verif Require Import Bytes F64 ItoaFacts NumFacts NumPrint.
Import ListNotations.
Local Open Scope list_scope.

Lemma iv_near m e x : in_iv m e x -> fval m e - p2 (e - 1) <= x <= fval m e + p2 (e - 1).
Proof.
  intros [[A B] _]. pose proof (fval_hi m e). pose proof (fval_lo m e) as G. split; [|lra]. destruct (_ && _)%bool; [|lra].
  assert (p2 (e - 2) <= p2 (e - 1)) by (apply p2_le; lia). lra.
Qed.
Lemma near_iv m e x : ((m =? 2 ^ 52) && negb (e =? -1074))%bool%Z = false -> fval m e - p2 (e - 1) < x < fval m e + p2 (e - 1) -> in_iv m e x.
Proof.
  intros P [A B]. pose proof (fval_hi m e). pose proof (fval_lo m e) as G. rewrite P in G. unfold in_iv. split; [|right]; split; lra.
Qed.
Lemma fval_pos m e : (0 < m)%Z -> 0 < fval m e.
Proof. intros H. unfold fval. pose proof (inj_pos m H). pose proof (p2_pos e). nra. Qed.

(** The exponent form is chosen below 10^-4 and from 10^6 on. *)
Lemma dp_big m e D k dp : (0 < m)%Z -> canon m e -> shortest m e = (D, k, dp) -> (7 <= dp)%Z -> p10 6 <= fval m e.
Proof.
  intros Hm C E H. destruct (shortest_spec m e D k dp Hm C E) as (_ & _ & Iv & [[A _]|((-> & ->) & A & B)]).
  - eapply Qle_trans; [|exact A]. apply p10_le. lia.
  - destruct (Z.eq_dec dp 7) as [->|N]; [|eapply Qle_trans; [|exact B]; apply p10_le; lia]. exfalso.
    assert (R : round64 (10 ^ 6) 1 = Some (m, e)). { apply round64_iv; [lia|lia|exact Hm|exact C|]. eapply in_iv_ext; [|exact Iv]. rewrite qz_1. change (7 - 1)%Z with 6%Z. rewrite (p10_Z 6) by lia. change (inject_Z 1) with 1. ring. }
    vm_compute in R. inversion R; subst m e. change (7 - 1)%Z with 6%Z in A. apply Qlt_not_le in A. apply A. unfold fval. rewrite (p10_Z 6) by lia.
    pose proof (p2_inv (-33)) as I. change (- -33)%Z with 33%Z in I. rewrite (p2_Z 33) in I by lia.
    change (inject_Z 8589934592000000) with (inject_Z (10 ^ 6) * inject_Z (2 ^ 33)). rewrite <- Qmult_assoc, (Qmult_comm (inject_Z (2 ^ 33))), I. lra.
Qed.
Lemma dp_small m e D k dp : (0 < m)%Z -> canon m e -> shortest m e = (D, k, dp) -> (dp <= -4)%Z -> fval m e < p10 (-4).
Proof.
  intros Hm C E H. destruct (shortest_spec m e D k dp Hm C E) as (_ & _ & Iv & [[_ A]|((-> & ->) & A & B)]).
  - eapply Qlt_le_trans; [exact A|]. apply p10_le. lia.
  - eapply Qlt_le_trans; [exact A|]. apply p10_le. lia.
Qed.
Lemma fmt_g_none neg m e : (0 < m)%Z -> canon m e -> fmt_g neg m e = None -> p10 6 <= fval m e \/ fval m e < p10 (-4).
Proof.
  intros Hm C E. unfold fmt_g in E. destruct (Z.eqb_spec m 0); [lia|]. destruct (shortest m e) as [[D0 k0] dp] eqn:Es. destruct (strip_zeros 20 D0 k0) as [D k].
  destruct ((dp - 1 <? -4) || (6 <=? dp - 1))%Z eqn:O.
  - apply orb_true_iff in O as [O|O]; [apply Z.ltb_lt in O; right; eapply dp_small; eauto; lia|apply Z.leb_le in O; left; eapply dp_big; eauto; lia].
  - destruct (dp <=? 0)%Z; [discriminate|]. destruct (k <=? dp)%Z; discriminate.
Qed.

Lemma itoa_neg q : (0 < q)%Z -> itoa_Z (- q) = 45%N :: itoa_Z q.
Proof. intros H. destruct q; try lia. reflexivity. Qed.
Lemma as_int64_some neg m e n d z : (0 < m)%Z -> frac m e = (n, d) -> as_int64 neg m e = Some z ->
  (0 < n / d)%Z /\ qz (n / d) 1 == fval m e /\ itoa_Z z = sign neg ++ itoa_Z (n / d).
Proof.
  intros Hm Ef E. unfold as_int64 in E. rewrite Ef in E. pose proof (frac_q _ _ _ _ Ef) as [Hd Q]. pose proof (frac_pos m e n d Hm Ef) as Hn.
  destruct (Z.eqb_spec (n mod d) 0) as [M|M]; [|discriminate]. pose proof (Z.div_mod n d ltac:(lia)) as Dm. rewrite M in Dm.
  assert (P : (0 < n / d)%Z) by nia. split; [exact P|]. split.
  - unfold fval. rewrite <- Q. apply Qle_antisym; rewrite qz_cmp by lia; nia.
  - destruct (_ && _)%bool; [|discriminate]. inversion E; subst z. destruct neg; cbn [sign app]; [now apply itoa_neg|reflexivity].
Qed.

(** Large numbers *)
Lemma big_read neg m e : (0 < m)%Z -> canon m e -> p10 6 <= fval m e -> parse_float (number_string (Fin neg m e)) = Some (Fin neg m e).
Proof.
  intros Hm C Big. cbn [number_string]. destruct (fmt_g neg m e) as [t|] eqn:Eg; [eapply fmt_g_read; eauto|].
  destruct (frac m e) as [n d] eqn:Ef. pose proof (frac_q _ _ _ _ Ef) as [Hd Q]. pose proof (frac_pos m e n d Hm Ef) as Hn. fold (fval m e) in Q.
  destruct (as_int64 neg m e) as [z|] eqn:Ei.
  - destruct (as_int64_some neg m e n d z Hm Ef Ei) as (P & Qz & ->). rewrite parse_int; [|apply itoa_Z_digit; lia|apply itoa_Z_nonempty].
    rewrite digits_val_itoa by lia. apply read_iv; auto; [lia|]. eapply in_iv_ext; [symmetry; exact Qz|]. apply in_iv_self.
  - pose proof (fmt_f10_read neg m e ltac:(lia)) as F. rewrite Ef in F. change (b "0") with [48%N]. rewrite F. clear F.
    pose proof (rhe_near (n * 10 ^ 10) d Hd) as Rn.
    assert (Qn : qz (n * 10 ^ 10) d == fval m e * inject_Z (10 ^ 10)). { rewrite <- Q. unfold qz. rewrite inject_Z_mult. pose proof (inj_pos d Hd). field. lra. }
    rewrite Qn in Rn. assert (Rp : (0 < rhe (n * 10 ^ 10) d)%Z).
    { rewrite (p10_Z 6) in Big by lia. assert (inject_Z 0 < inject_Z (rhe (n * 10 ^ 10) d)); [|rewrite <- Zlt_Qlt in H; exact H].
      destruct Rn as [_ Rn]. change (inject_Z (10 ^ 6)) with (1000000#1) in Big. change (inject_Z (10 ^ 10)) with (10000000000#1) in Rn. change (inject_Z 0) with 0. lra. }
    apply read_iv; auto; [lia|].
    destruct (Z.eq_dec (n mod d) 0) as [M|M].
    + pose proof (Z.div_mod n d ltac:(lia)) as Dm. rewrite M in Dm. assert (Er : rhe (n * 10 ^ 10) d = (n / d * 10 ^ 10)%Z) by (apply rhe_spec; [exact Hd|nia|right; nia]).
      rewrite Er. eapply in_iv_ext; [|apply in_iv_self]. rewrite <- Q. apply Qle_antisym; rewrite qz_cmp by lia; nia.
    + assert (Pw : ((m =? 2 ^ 52) && negb (e =? -1074))%bool%Z = false).
      { destruct (Z.eqb_spec m (2 ^ 52)) as [Em|]; [|reflexivity]. exfalso. apply M. unfold frac in Ef. destruct (Z.ltb_spec e 0) as [L|L]; inversion Ef; subst n d; [|now rewrite Z.mod_1_r].
        assert (-52 <= e)%Z.
        { destruct (Z.lt_ge_cases e (-52)) as [Lt|]; [|assumption]. exfalso. unfold fval in Big. rewrite Em, (p10_Z 6), <- (p2_Z 52), <- p2_add in Big by lia.
          assert (p2 (52 + e) <= p2 0) by (apply p2_le; lia). rewrite (p2_Z 0) in H by lia. change (inject_Z (10 ^ 6)) with (1000000#1) in Big. change (inject_Z (2 ^ 0)) with 1 in H. lra. }
        rewrite Em. replace 52%Z with ((52 + e) + (- e))%Z by lia. rewrite Z.pow_add_r by lia. apply Z.mod_mul. lia. }
      apply near_iv; [exact Pw|]. destruct C as [C|(Mb & _)]; [lia|].
      assert (G : (1000000 # 1) <= (2 # 1) * inject_Z (2 ^ 53) * p2 (e - 1)).
      { rewrite (p10_Z 6) in Big by lia. change (inject_Z (10 ^ 6)) with (1000000#1) in Big. unfold fval in Big. rewrite (p2_step e) in Big. pose proof (p2_pos (e - 1)).
        assert (inject_Z m <= inject_Z (2 ^ 53)) by (rewrite <- Zle_Qle; lia). nra. }
      change (inject_Z (2 ^ 53)) with (9007199254740992#1) in G. change (inject_Z (10 ^ 10)) with (10000000000#1) in *.
      remember (rhe (n * 10 ^ 10) d) as r. assert (Er : qz r (10 ^ 10) == inject_Z r * (1 # 10000000000)). { unfold qz. change (inject_Z (10 ^ 10)) with (10000000000#1). field. }
      rewrite Er. lra.
Qed.
(** Small numbers are cut off after ten decimals *)
Lemma small_read neg m e n d : (0 < m)%Z -> canon m e -> frac m e = (n, d) -> fval m e < p10 (-4) ->
  parse_float (number_string (Fin neg m e)) = read neg (rhe (n * 10 ^ 10) d) (10 ^ 10).
Proof.
  intros Hm C Ef Sm. cbn [number_string]. assert (P4 : p10 (-4) == 1 # 10000).
  { pose proof (p10_inv (-4)) as I. change (- -4)%Z with 4%Z in I. rewrite (p10_Z 4) in I by lia. change (inject_Z (10 ^ 4)) with (10000#1) in I. lra. }
  assert (Eg : fmt_g neg m e = None).
  { unfold fmt_g. destruct (Z.eqb_spec m 0); [lia|]. destruct (shortest m e) as [[D0 k0] dp] eqn:Es. destruct (strip_zeros 20 D0 k0) as [D k].
    replace ((dp - 1 <? -4) || (6 <=? dp - 1))%Z with true; [reflexivity|]. symmetry. apply orb_true_iff. left. apply Z.ltb_lt.
    destruct (shortest_spec m e D0 k0 dp Hm C Es) as (_ & _ & Iv & [[A _]|((-> & ->) & A & B)]).
    - assert (dp - 1 < -4)%Z; [|lia]. apply p10_lt_inv. lra.
    - assert (dp - 2 < -4)%Z by (apply p10_lt_inv; lra). destruct (Z.eq_dec dp (-3)) as [->|]; [|lia]. exfalso.
      assert (R : round64 1 (10 ^ 4) = Some (m, e)). { apply round64_iv; [lia|lia|exact Hm|exact C|]. eapply in_iv_ext; [|exact Iv]. change (-3 - 1)%Z with (-4)%Z. rewrite P4. reflexivity. }
      vm_compute in R. inversion R; subst m e. revert Sm. apply Qle_not_lt. rewrite P4. unfold fval.
      pose proof (p2_inv (-66)) as I. change (- -66)%Z with 66%Z in I. rewrite (p2_Z 66) in I by lia. change (inject_Z (2 ^ 66)) with (73786976294838206464#1) in I.
      change (inject_Z 7378697629483821) with (7378697629483821#1). lra. }
  rewrite Eg. destruct (as_int64 neg m e) as [z|] eqn:Ei.
  - exfalso. destruct (as_int64_some neg m e n d z Hm Ef Ei) as (P & Qz & _). rewrite qz_1 in Qz. assert (inject_Z 1 <= inject_Z (n / d)) by (rewrite <- Zle_Qle; lia).
    change (inject_Z 1) with 1 in H. lra.
  - pose proof (fmt_f10_read neg m e ltac:(lia)) as F. rewrite Ef in F. exact F.
Qed.

(** ** C40 *)
Theorem number_survives neg m e : canon m e -> m = 0%Z \/ p10 (-4) <= fval m e -> parse_float (number_string (Fin neg m e)) = Some (Fin neg m e).
Proof.
  intros C H. destruct (Z.eq_dec m 0) as [->|Nm].
  - destruct C as [[_ ->]|C]; [|lia]. destruct neg; reflexivity.
  - destruct H as [H|H]; [congruence|]. assert (Hm : (0 < m)%Z) by (destruct C; lia).
    destruct (Qlt_le_dec (fval m e) (p10 6)) as [L|L]; [|now apply big_read].
    cbn [number_string]. destruct (fmt_g neg m e) as [t|] eqn:Eg; [eapply fmt_g_read; eauto|].
    apply fmt_g_none in Eg; auto. exfalso. destruct Eg; lra.
Qed.
Theorem decimal_survives neg N m e : (0 <= N)%Z -> round64 N (10 ^ 10) = Some (m, e) -> parse_float (number_string (Fin neg m e)) = Some (Fin neg m e).
Proof.
  intros HN R. destruct (round64_sound N (10 ^ 10) m e HN ltac:(lia) R) as [C Iv]. destruct (Z.eq_dec m 0) as [->|Nm].
  - apply number_survives; [exact C|now left].
  - assert (Hm : (0 < m)%Z) by (destruct C; lia). specialize (Iv Hm). destruct (Qlt_le_dec (fval m e) (p10 (-4))) as [L|L]; [|apply number_survives; auto].
    destruct (frac m e) as [n d] eqn:Ef. rewrite (small_read neg m e n d) by auto. pose proof (frac_q _ _ _ _ Ef) as [Hd Q]. fold (fval m e) in Q.
    assert (Er : rhe (n * 10 ^ 10) d = N); [|unfold read; now rewrite Er, R].
    assert (Qn : qz (n * 10 ^ 10) d == fval m e * inject_Z (10 ^ 10)). { rewrite <- Q. unfold qz. rewrite inject_Z_mult. pose proof (inj_pos d Hd). field. lra. }
    pose proof (iv_near _ _ _ Iv) as Nr. assert (Ex : qz N (10 ^ 10) == inject_Z N * (1 # 10000000000)). { unfold qz. change (inject_Z (10 ^ 10)) with (10000000000#1). field. }
    rewrite Ex in Nr. assert (P4 : p10 (-4) == 1 # 10000).
    { pose proof (p10_inv (-4)) as I. change (- -4)%Z with 4%Z in I. rewrite (p10_Z 4) in I by lia. change (inject_Z (10 ^ 4)) with (10000#1) in I. lra. }
    assert (G : p2 (e - 1) <= 1 # 10000000000000).
    { destruct C as [C|(Mb & Eb & Mn)]; [lia|]. unfold fval in L. rewrite (p2_step e), P4 in L. pose proof (p2_pos (e - 1)).
      destruct Mn as [Mn|Mn]; [|subst e; eapply Qle_trans with (p2 (-60)); [apply p2_le; lia|pose proof (p2_inv (-60)) as I; change (- -60)%Z with 60%Z in I; rewrite (p2_Z 60) in I by lia; change (inject_Z (2 ^ 60)) with (1152921504606846976#1) in I; lra]].
      assert (inject_Z (2 ^ 52) <= inject_Z m) by (rewrite <- Zle_Qle; exact Mn). change (inject_Z (2 ^ 52)) with (4503599627370496#1) in H0. nra. }
    apply rhe_q; [exact Hd| |right]; rewrite Qn; change (inject_Z (10 ^ 10)) with (10000000000#1); lra.
Qed.

(** ** Literals *)
(** The texts of the grammar's number rule: sign, digits, and possibly a point
    and more digits. *)
Definition digits (s : bytes) : Prop := Forall (fun c => is_digit c = true) s.
Definition literal (neg : bool) (ip : bytes) (fp : option bytes) : bytes :=
  sign neg ++ ip ++ match fp with Some f => [46%N] ++ f | None => [] end.
Definition is_literal (ip : bytes) (fp : option bytes) : Prop :=
  digits ip /\ ip <> [] /\ match fp with Some f => digits f | None => True end.
(** The number a literal denotes, without sign: n / d *)
Definition lit_num (ip : bytes) (fp : option bytes) : Z := digits_val (ip ++ match fp with Some f => f | None => [] end).
Definition lit_den (fp : option bytes) : Z := 10 ^ Z.of_nat (List.length (match fp with Some f => f | None => [] end)).

Lemma parse_literal neg ip fp : is_literal ip fp -> parse_float (literal neg ip fp) = read neg (lit_num ip fp) (lit_den fp).
Proof.
  intros (A & B & C). unfold literal, lit_num, lit_den. destruct fp as [f|]; [now apply parse_frac|]. rewrite !app_nil_r. now apply parse_int.
Qed.
Lemma digits_val_nonneg s : digits s -> (0 <= digits_val s)%Z.
Proof.
  intros H. unfold digits_val. assert (G : forall a, (0 <= a)%Z -> (0 <= fold_left (fun acc c => acc * 10 + (Z.of_N c - 48)) s a)%Z); [|apply G; lia].
  induction H as [|c s Hc Hs IH]; intros a Ha; [exact Ha|]. cbn [fold_left]. apply IH. unfold is_digit in Hc. apply andb_true_iff in Hc as [Hc _]. apply N.leb_le in Hc. lia.
Qed.
Lemma lit_pos ip fp : is_literal ip fp -> (0 <= lit_num ip fp)%Z /\ (0 < lit_den fp)%Z.
Proof.
  intros (A & _ & C). split; [|apply Z.pow_pos_nonneg; lia]. apply digits_val_nonneg. apply Forall_app. split; [exact A|]. destruct fp; [exact C|constructor].
Qed.
Lemma parse_literal_canon neg ip fp v : is_literal ip fp -> parse_float (literal neg ip fp) = Some v -> exists m e, v = Fin neg m e /\ canon m e /\ ((0 < m)%Z -> in_iv m e (qz (lit_num ip fp) (lit_den fp))).
Proof.
  intros L E. rewrite parse_literal in E by exact L. unfold read in E. destruct (round64 _ _) as [[m e]|] eqn:R; inversion E. exists m, e. split; [reflexivity|].
  destruct (lit_pos _ _ L). eapply round64_sound; eauto.
Qed.
Lemma literal_survives neg ip fp v : is_literal ip fp -> parse_float (literal neg ip fp) = Some v ->
  (List.length (match fp with Some f => f | None => [] end) <= 10)%nat \/ ((1 # 10000) <= inject_Z (lit_num ip fp) / inject_Z (lit_den fp)) ->
  parse_float (number_string v) = Some v.
Proof.
  intros L E H. destruct (parse_literal_canon neg ip fp v L E) as (m & e & -> & C & Iv). destruct (lit_pos _ _ L) as [P1 P2].
  destruct H as [H|H].
  - rewrite parse_literal in E by exact L. unfold read in E. destruct (round64 (lit_num ip fp) (lit_den fp)) as [[m' e']|] eqn:R; inversion E; subst m' e'.
    remember (List.length _) as l eqn:El. apply (decimal_survives neg (lit_num ip fp * 10 ^ (10 - Z.of_nat l)) m e).
    + assert (0 < 10 ^ (10 - Z.of_nat l))%Z by (apply Z.pow_pos_nonneg; lia). nia.
    + rewrite <- R. assert (0 < 10 ^ (10 - Z.of_nat l))%Z by (apply Z.pow_pos_nonneg; lia). apply round64_ext; [nia|lia|lia|exact P2|].
      unfold lit_den in *. rewrite <- El in *. assert (E10 : (10 ^ 10 = 10 ^ (10 - Z.of_nat l) * 10 ^ Z.of_nat l)%Z) by (rewrite <- Z.pow_add_r by lia; f_equal; lia).
      apply Qle_antisym; rewrite qz_cmp by lia; rewrite E10; nia.
  - fold (qz (lit_num ip fp) (lit_den fp)) in H. destruct (Z.eq_dec m 0) as [->|Nm]; [apply number_survives; auto|]. assert (Hm : (0 < m)%Z) by (destruct C; lia). specialize (Iv Hm).
    apply number_survives; [exact C|right]. apply Qnot_lt_le. intros Lt.
    (* 10^-4 itself rounds to a float above it, and rounding is monotone *)
    assert (P4 : p10 (-4) == 1 # 10000).
    { pose proof (p10_inv (-4)) as I. change (- -4)%Z with 4%Z in I. rewrite (p10_Z 4) in I by lia. change (inject_Z (10 ^ 4)) with (10000#1) in I. lra. }

    assert (R : round64 1 (10 ^ 4) = Some (m, e)).
    { apply round64_iv; [lia|lia|exact Hm|exact C|]. assert (E4 : qz 1 (10 ^ 4) == 1 # 10000) by reflexivity. eapply in_iv_ext; [symmetry; exact E4|].
      destruct Iv as [[A B] S]. pose proof (in_iv_self m e) as [[A2 B2] S2]. pose proof (gap_lo m e). pose proof (p2_pos (e - 2)). split; [lra|].
      destruct S as [S|S]; [now left|right; lra]. }
    vm_compute in R. inversion R; subst m e. rewrite P4 in Lt. unfold fval in Lt.
    pose proof (p2_inv (-66)) as I. change (- -66)%Z with 66%Z in I. rewrite (p2_Z 66) in I by lia. change (inject_Z (2 ^ 66)) with (73786976294838206464#1) in I.
    change (inject_Z 7378697629483821) with (7378697629483821#1) in Lt. lra.
Qed.

(** ** C39 *)
Lemma int_repr z : (0 < z <= 2 ^ 53)%Z -> exists m e, (0 < m)%Z /\ canon m e /\ fval m e == inject_Z z.
Proof.
  intros H. destruct (Z.eq_dec z (2 ^ 53)) as [->|N].
  - exists (2 ^ 52)%Z, 1%Z. split; [lia|]. split; [right; lia|]. unfold fval. rewrite (p2_Z 1) by lia. reflexivity.
  - pose proof (Z.log2_spec z ltac:(lia)) as [A B]. assert (L : (0 <= Z.log2 z <= 52)%Z).
    { split; [apply Z.log2_nonneg|]. assert (Z.log2 z < 53)%Z; [|lia]. apply Z.log2_lt_pow2; lia. }
    remember (Z.log2 z) as l. assert (P : (2 ^ l * 2 ^ (52 - l) = 2 ^ 52)%Z) by (rewrite <- Z.pow_add_r by lia; f_equal; lia).
    rewrite Z.pow_succ_r in B by lia. assert (Pp : (0 < 2 ^ (52 - l))%Z) by (apply Z.pow_pos_nonneg; lia).
    exists (z * 2 ^ (52 - l))%Z, (l - 52)%Z. split; [nia|]. split; [right; split; [nia|split; [lia|left; nia]]|].
    unfold fval. rewrite inject_Z_mult, <- p2_Z by lia. rewrite <- Qmult_assoc, <- p2_add. replace (52 - l + (l - 52))%Z with 0%Z by lia. rewrite (p2_Z 0) by lia. change (inject_Z (2 ^ 0)) with 1. ring.
Qed.
Lemma shortest_loop_int z n d ln ld un ud dp incl : (0 < d)%Z -> (0 < ld)%Z -> (0 < ud)%Z -> qz n d == inject_Z z -> (0 < z)%Z ->
  inject_Z (z - 1) < qz ln ld < inject_Z z -> inject_Z z < qz un ud < inject_Z (z + 1) ->
  forall fuel k, (k <= dp)%Z -> (dp - k < Z.of_nat fuel)%Z ->
  exists D k', shortest_loop fuel k n d ln ld un ud dp incl = (D, k') /\ (k <= k' <= dp)%Z /\ (D * 10 ^ (dp - k') = z)%Z.
Proof.
  intros Hd Hld Hud X Hz [L1 L2] [U1 U2]. induction fuel as [|fuel IH]; intros k Hk F; [lia|]. cbn [shortest_loop].
  destruct (scale10 n d (k - dp)) as [sn sd] eqn:Es. destruct (scale10 (sn / sd) 1 (dp - k)) as [dn dd] eqn:Ed.
  destruct (scale10 (sn / sd + 1) 1 (dp - k)) as [pn pd] eqn:Ep.
  pose proof (scale10_q _ _ _ _ _ Hd Es) as [Psd Qs]. pose proof (scale10_q _ _ _ _ _ Z.lt_0_1 Ed) as [Pdd Qd]. pose proof (scale10_q _ _ _ _ _ Z.lt_0_1 Ep) as [Ppd Qp].
  rewrite qz_1, p10_Z, <- inject_Z_mult in Qd, Qp by lia. assert (Pt : (0 < 10 ^ (dp - k))%Z) by (apply Z.pow_pos_nonneg; lia).
  assert (Fl : (sn / sd = z / 10 ^ (dp - k))%Z).
  { assert (E : (sn * 10 ^ (dp - k) = z * sd)%Z).
    { apply inject_Z_injective. rewrite !inject_Z_mult, <- (qz_mul sn sd Psd), Qs, X, <- (p10_Z (dp - k)) by lia. pose proof (p10_inv (dp - k)) as I. replace (- (dp - k))%Z with (k - dp)%Z in I by lia.
      setoid_replace (inject_Z z * p10 (k - dp) * inject_Z sd * p10 (dp - k)) with (inject_Z z * inject_Z sd * (p10 (dp - k) * p10 (k - dp))) by ring. rewrite I. ring. }
    rewrite <- (Z.div_mul_cancel_r sn sd (10 ^ (dp - k))) by lia. rewrite E, (Z.mul_comm sd). apply Z.div_mul_cancel_r; lia. }
  pose proof (Z.div_mod z (10 ^ (dp - k)) ltac:(lia)) as Dm. pose proof (Z.mod_pos_bound z (10 ^ (dp - k)) Pt) as Mb. rewrite <- Fl in Dm. remember (sn / sd)%Z as fl.
  assert (Ku : ((pn * ud <? un * pd) || (incl && (pn * ud <=? un * pd)))%Z = false).
  { assert (G : (un * pd < pn * ud)%Z). { apply qz_cmp_lt; [exact Hud|exact Ppd|]. rewrite Qp. eapply Qlt_le_trans; [exact U2|]. rewrite <- Zle_Qle. nia. }
    destruct (Z.ltb_spec (pn * ud) (un * pd)); [lia|]. destruct (Z.leb_spec (pn * ud) (un * pd)); [lia|]. now rewrite andb_false_r. }
  rewrite Ku, andb_false_r.
  destruct (((ln * dd <? dn * ld) || (incl && (ln * dd <=? dn * ld)))%Z) eqn:Kd.
  - exists fl, k. split; [reflexivity|]. split; [lia|].
    assert (G : qz ln ld <= qz dn dd).
    { rewrite qz_cmp by assumption. apply orb_true_iff in Kd as [Kd|Kd]; [apply Z.ltb_lt in Kd; lia|]. apply andb_true_iff in Kd as [_ Kd]. now apply Z.leb_le in Kd. }
    rewrite Qd in G. assert (inject_Z (z - 1) < inject_Z (fl * 10 ^ (dp - k))) by lra. rewrite <- Zlt_Qlt in H. nia.
  - destruct (Z.eq_dec k dp) as [->|Nk].
    + exfalso. rewrite Z.sub_diag in *. change (10 ^ 0)%Z with 1%Z in *. assert (fl = z) by lia. apply orb_false_iff in Kd as [Kd _]. apply Z.ltb_ge in Kd.
      assert (qz dn dd <= qz ln ld) by (rewrite qz_cmp by assumption; exact Kd). rewrite Qd, Z.mul_1_r in H0. rewrite H in H0. lra.
    + destruct (IH (k + 1)%Z) as (D & k' & E & K & V); [lia|lia|]. exists D, k'. split; [exact E|]. split; [lia|exact V].
Qed.
Theorem int_printed neg z : (0 <= z <= 2 ^ 53)%Z -> exists m e, canon m e /\ fval m e == inject_Z z /\
  (forall ip, digits ip -> ip <> [] -> digits_val ip = z -> parse_float (sign neg ++ ip) = Some (Fin neg m e)) /\
  number_string (Fin neg m e) = sign neg ++ itoa_Z z.
Proof.
  intros H. destruct (Z.eq_dec z 0) as [->|Nz].
  - exists 0%Z, 0%Z. split; [left; auto|]. split; [unfold fval; change (inject_Z 0) with 0; ring|]. split.
    + intros ip A B E. rewrite parse_int by assumption. rewrite E. reflexivity.
    + destruct neg; reflexivity.
  - destruct (int_repr z ltac:(lia)) as (m & e & Hm & C & V). exists m, e. split; [exact C|]. split; [exact V|]. split.
    + intros ip A B E. rewrite parse_int by assumption. rewrite E. apply read_iv; auto; [lia|lia|]. eapply in_iv_ext; [|apply in_iv_self]. now rewrite V, qz_1.
    + cbn [number_string]. destruct (frac m e) as [n d] eqn:Ef. pose proof (frac_q _ _ _ _ Ef) as [Hd Q]. fold (fval m e) in Q. rewrite V in Q.
      assert (Nd : (n mod d = 0 /\ n / d = z)%Z).
      { assert (n = z * d)%Z. { apply inject_Z_injective. rewrite inject_Z_mult, <- Q. symmetry. now apply qz_mul. } subst n. split; [apply Z.mod_mul; lia|apply Z.div_mul; lia]. }
      destruct (fmt_g neg m e) as [t|] eqn:Eg.
      * unfold fmt_g in Eg. destruct (Z.eqb_spec m 0); [lia|]. destruct (shortest m e) as [[D0 k0] dp] eqn:Es.
        destruct (shortest_spec m e D0 k0 dp Hm C Es) as (K0 & B0 & _ & Alt).
        destruct (strip_zeros 20 D0 k0) as [D k] eqn:Ez. assert (P0 : (0 < D0)%Z). { assert (0 < 10 ^ (k0 - 1))%Z by (apply Z.pow_pos_nonneg; lia). lia. }
        destruct (strip_zeros_spec _ _ _ _ _ P0 Ez K0 B0) as (K & B & ED).
        destruct ((dp - 1 <? -4) || (6 <=? dp - 1))%Z eqn:O; [discriminate|]. apply orb_false_iff in O as [_ O]. apply Z.leb_gt in O.
        assert (Sm : (z < 10 ^ 6)%Z).
        { assert (inject_Z z < inject_Z (10 ^ 6)); [|rewrite <- Zlt_Qlt in H0; exact H0]. rewrite <- V, <- p10_Z by lia. destruct Alt as [[_ A]|(_ & A & _)]; eapply Qlt_le_trans; try exact A; apply p10_le; lia. }
        (* the digits *)
        assert (Main : (D0 * 10 ^ (dp - k0) = z /\ 1 <= k0 <= dp)%Z).
        { unfold shortest in Es. rewrite Ef in Es. destruct C as [C|(Mb & Eb & Mn)]; [lia|]. pose proof (dec_point_spec m e n d Mb Eb Ef) as Dp. remember (dec_point n d) as dq.
          destruct (frac (2 * m + 1) (e - 1)) as [un ud] eqn:Eu. pose proof (frac_q _ _ _ _ Eu) as [Hud Qu].
          assert (exists ln ld, (if ((m =? 2 ^ 52) && negb (e =? -1074))%bool%Z then frac (4 * m - 1) (e - 2) else frac (2 * m - 1) (e - 1)) = (ln, ld) /\ (0 < ld)%Z /\ qz ln ld == lo m e) as (ln & ld & El & Hld & Ql).
          { unfold lo. destruct (_ && _)%bool.
            - destruct (frac (4 * m - 1) (e - 2)) as [ln ld] eqn:El. apply frac_q in El as [G1 G2]. eauto.
            - destruct (frac (2 * m - 1) (e - 1)) as [ln ld] eqn:El. apply frac_q in El as [G1 G2]. eauto. }
          rewrite El in Es. change (inject_Z (2 * m + 1) * p2 (e - 1)) with (hi m e) in Qu.
          assert (Half : p2 (e - 1) < 1).
          { destruct (Z.lt_ge_cases e (-1)) as [Le|Le].
            - apply Qle_lt_trans with (p2 (-1)); [apply p2_le; lia|]. pose proof (p2_inv (-1)) as I. change (- -1)%Z with 1%Z in I. rewrite (p2_Z 1) in I by lia. change (inject_Z (2 ^ 1)) with (2#1) in I. lra.
            - exfalso. destruct Mn as [Mn|Mn]; [|lia]. assert (inject_Z (2 ^ 52) <= inject_Z m) by (rewrite <- Zle_Qle; exact Mn).
              assert (inject_Z z < inject_Z (10 ^ 6)) by (rewrite <- Zlt_Qlt; exact Sm). rewrite <- V in H1. unfold fval in H1.
              assert (p2 (-1) <= p2 e) by (apply p2_le; lia). pose proof (p2_inv (-1)) as I. change (- -1)%Z with 1%Z in I. rewrite (p2_Z 1) in I by lia. change (inject_Z (2 ^ 1)) with (2#1) in I.
              change (inject_Z (2 ^ 52)) with (4503599627370496#1) in H0. change (inject_Z (10 ^ 6)) with (1000000#1) in H1. nra. }
          pose proof (gap_lo m e) as G. pose proof (p2_pos (e - 2)) as P2. pose proof (fval_hi m e) as Gh. pose proof (p2_pos (e - 1)) as P1. pose proof (fval_lo m e) as Gl.
          assert (Gl2 : fval m e - lo m e <= p2 (e - 1)). { rewrite Gl. destruct (_ && _)%bool; [apply p2_le; lia|lra]. }
          rewrite V in *.
          assert (Dq : (1 <= dq <= 6)%Z).
          { destruct Dp as [D1 D2]. split.
            - assert (0 < dq)%Z; [|lia]. apply p10_lt_inv. rewrite (p10_Z 0) by lia. change (inject_Z (10 ^ 0)) with (inject_Z 1). apply Qle_lt_trans with (2 := D2). rewrite <- Zle_Qle. lia.
            - assert (dq - 1 < 6)%Z; [|lia]. apply p10_lt_inv. rewrite (p10_Z 6) by lia. apply Qle_lt_trans with (1 := D1). rewrite <- Zlt_Qlt. exact Sm. }
          destruct (shortest_loop_int z n d ln ld un ud dq (Z.even m) Hd Hld Hud Q ltac:(lia)) with (fuel := 20%nat) (k := 1%Z) as (D1 & k1 & E1 & K1 & V1).
          { rewrite Ql. unfold Zminus. rewrite inject_Z_plus. change (inject_Z (-(1))) with (-(1)). split; lra. }
          { rewrite Qu. rewrite inject_Z_plus. change (inject_Z 1) with 1. split; lra. }
          { lia. } { lia. }
          rewrite E1 in Es. destruct (Z.eqb_spec D1 (10 ^ k1)) as [Eq|Eq].
          - exfalso. rewrite Eq, <- Z.pow_add_r in V1 by lia. replace (k1 + (dq - k1))%Z with dq in V1 by lia. destruct Dp as [_ D2]. rewrite p10_Z, V1 in D2 by lia. lra.
          - inversion Es; subst D1 k1 dp. split; [exact V1|lia]. }
        destruct Main as [Mv Mk]. destruct (Z.leb_spec dp 0); [lia|]. destruct (Z.leb_spec k dp); [|lia]. some_inv Eg.
        change (if neg then [45%N] else []) with (sign neg). f_equal.
        assert (PD : (0 < D)%Z). { assert (0 < 10 ^ (k - 1))%Z by (apply Z.pow_pos_nonneg; lia). lia. }
        rewrite <- itoa_Z_times10 by exact PD. f_equal. rewrite Z2Nat.id by lia. rewrite <- Mv, ED, <- Z.mul_assoc, <- Z.pow_add_r by lia. do 2 f_equal. lia.
      * assert (Ei : as_int64 neg m e = Some (if neg then - z else z)%Z).
        { unfold as_int64. rewrite Ef. destruct Nd as [-> ->]. cbn [Z.eqb]. replace ((- 2 ^ 63 <=? (if neg then - z else z)) && ((if neg then - z else z) <? 2 ^ 63))%Z with true; [reflexivity|].
          symmetry. apply andb_true_iff. rewrite Z.leb_le, Z.ltb_lt. destruct neg; lia. }
        rewrite Ei. destruct neg; [apply itoa_neg; lia|reflexivity].
Qed.
