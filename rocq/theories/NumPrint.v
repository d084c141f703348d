(** Printing of numbers and reading them back (C39, C40). *)
From Coq Require Import List NArith ZArith QArith Qpower Lqa Bool String Lia ZifyN.
From Verif Require Import Bytes F64 ItoaFacts NumFacts.
Import ListNotations.
Local Open Scope list_scope.

(** ** Decimal numerals *)
Section Numerals.
Local Open Scope N_scope.
Lemma digits_fuel_app k n acc : digits_fuel k n acc = digits_fuel k n [] ++ acc.
Proof.
  revert n acc. induction k as [|k IH]; intros n acc; [reflexivity|]. cbn [digits_fuel]. destruct (n <? 10); [reflexivity|].
  rewrite IH, (IH _ [_]), <- app_assoc. reflexivity.
Qed.
Lemma digits_fuel_enough k k' n : n < 2 ^ N.of_nat k -> n < 2 ^ N.of_nat k' -> k <> O -> k' <> O -> digits_fuel k n [] = digits_fuel k' n [].
Proof.
  revert k' n. induction k as [|k IH]; intros k' n H H' K K'; [congruence|]. destruct k' as [|k']; [congruence|]. cbn [digits_fuel].
  destruct (N.ltb_spec n 10) as [L|L]; [reflexivity|]. rewrite (digits_fuel_app k), (digits_fuel_app k'). f_equal.
  rewrite Nat2N.inj_succ, N.pow_succ_r' in *. apply IH; [apply N.div_lt_upper_bound; lia|apply N.div_lt_upper_bound; lia| |].
  - destruct k; [cbn in H; lia|discriminate].
  - destruct k'; [cbn in H'; lia|discriminate].
Qed.
Lemma itoa_N_step n : 10 <= n -> itoa_N n = itoa_N (n / 10) ++ [48 + n mod 10].
Proof.
  intros H. unfold itoa_N at 1. cbn [digits_fuel]. destruct (N.ltb_spec n 10); [lia|].
  rewrite digits_fuel_app. f_equal. unfold itoa_N.
  assert (P : n / 10 <> 0) by (intros E; apply N.div_small_iff in E; lia).
  pose proof (N.log2_spec n ltac:(lia)) as [A B]. pose proof (N.log2_spec (n / 10) ltac:(lia)) as [C D].
  pose proof (N.log2_le_mono 10 n H) as G. change (N.log2 10) with 3 in G.
  apply digits_fuel_enough; [rewrite N2Nat.id|rewrite Nat2N.inj_succ, N2Nat.id; exact D|lia|lia].
  apply N.div_lt_upper_bound; [lia|]. rewrite N.pow_succ_r' in B. nia.
Qed.
Lemma itoa_N_small n : n < 10 -> itoa_N n = [48 + n].
Proof.
  intros H. unfold itoa_N. cbn [digits_fuel]. destruct (N.ltb_spec n 10); [|lia]. now rewrite N.mod_small by lia.
Qed.
End Numerals.

Lemma digits_val_app x y : digits_val (x ++ y) = (digits_val x * 10 ^ Z.of_nat (List.length y) + digits_val y)%Z.
Proof.
  unfold digits_val. rewrite fold_left_app. generalize (fold_left (fun acc c => acc * 10 + (Z.of_N c - 48)) x 0)%Z as a.
  induction y as [|c y IH]; intros a; [cbn; lia|]. cbn [fold_left List.length]. rewrite IH, (IH (0 * 10 + _)%Z), Nat2Z.inj_succ, Z.pow_succ_r by lia. lia.
Qed.
Lemma digits_val_itoa z : (0 <= z)%Z -> digits_val (itoa_Z z) = z.
Proof.
  intros H. assert (E : forall n, digits_val (itoa_N n) = Z.of_N n).
  { intros n. induction n as [n IH] using (well_founded_induction N.lt_wf_0). destruct (N.ltb_spec n 10) as [L|L].
    - rewrite itoa_N_small by exact L. unfold digits_val. cbn [fold_left]. lia.
    - rewrite itoa_N_step, digits_val_app, IH by (auto; apply N.div_lt; lia). unfold digits_val. cbn [fold_left List.length].
      pose proof (N.div_mod' n 10). lia. }
  destruct z as [|p|p]; [reflexivity| |lia]. apply (E (Npos p)).
Qed.
Lemma digits_val_zeros n : digits_val (zeros n) = 0%Z.
Proof. induction n; [reflexivity|]. change (zeros (S n)) with ([48%N] ++ zeros n). rewrite digits_val_app, IHn. reflexivity. Qed.
Lemma zeros_length n : List.length (zeros n) = n. Proof. induction n; cbn; auto. Qed.
Lemma zeros_digit n : Forall (fun c => is_digit c = true) (zeros n). Proof. induction n; constructor; auto. Qed.
Lemma itoa_Z_digit z : (0 <= z)%Z -> Forall (fun c => is_digit c = true) (itoa_Z z).
Proof. intros H. destruct z; [repeat constructor| |lia]. apply itoa_N_digit. Qed.
Lemma itoa_Z_nonempty z : itoa_Z z <> [].
Proof. destruct z; cbn; try discriminate. apply itoa_N_nonempty. Qed.
Lemma itoa_Z_length z k : (0 < z)%Z -> (10 ^ (k - 1) <= z < 10 ^ k)%Z -> (1 <= k)%Z -> Z.of_nat (List.length (itoa_Z z)) = k.
Proof.
  intros H0 H Hk. destruct z as [|p|p]; try lia. cbn [itoa_Z]. clear H0.
  assert (E : forall n j, (10 ^ (Z.of_nat j) <= Z.of_N n < 10 ^ (Z.of_nat j + 1))%Z -> List.length (itoa_N n) = S j).
  { intros n. induction n as [n IH] using (well_founded_induction N.lt_wf_0). intros j Hj. destruct (N.ltb_spec n 10) as [L|L].
    - rewrite itoa_N_small by exact L. destruct j as [|j]; [reflexivity|]. exfalso. rewrite Nat2Z.inj_succ, Z.pow_succ_r in Hj by lia.
      assert (0 < 10 ^ Z.of_nat j)%Z by (apply Z.pow_pos_nonneg; lia). lia.
    - rewrite itoa_N_step, app_length by exact L. destruct j as [|j]; [cbn in Hj; lia|].
      rewrite (IH (n / 10)%N ltac:(apply N.div_lt; lia) j); [cbn; lia|]. rewrite Nat2Z.inj_succ, Z.add_succ_l, !Z.pow_succ_r in Hj by lia.
      remember (10 ^ Z.of_nat j)%Z as a. remember (10 ^ (Z.of_nat j + 1))%Z as c. rewrite N2Z.inj_div. change (Z.of_N 10) with 10%Z. split.
      + apply Z.div_le_lower_bound; lia.
      + apply Z.div_lt_upper_bound; lia. }
  rewrite (E (Npos p) (Z.to_nat (k - 1))); [lia|]. rewrite Z2Nat.id by lia. replace (k - 1 + 1)%Z with k by lia. exact H.
Qed.
Lemma itoa_Z_times10 z j : (0 < z)%Z -> itoa_Z (z * 10 ^ Z.of_nat j) = itoa_Z z ++ zeros j.
Proof.
  intros H. induction j as [|j IH]; [now rewrite Z.pow_0_r, Z.mul_1_r, app_nil_r|].
  replace (zeros (S j)) with (zeros j ++ [48%N]) by (clear; induction j as [|j IH]; [reflexivity|]; cbn [zeros app] in *; now rewrite IH).
  rewrite app_assoc, <- IH, Nat2Z.inj_succ, Z.pow_succ_r by lia. assert (0 < 10 ^ Z.of_nat j)%Z by (apply Z.pow_pos_nonneg; lia).
  replace (z * (10 * 10 ^ Z.of_nat j))%Z with (10 * (z * 10 ^ Z.of_nat j))%Z by lia. assert (P : (0 < z * 10 ^ Z.of_nat j)%Z) by nia.
  destruct (z * 10 ^ Z.of_nat j)%Z as [|p|p] eqn:E; try lia. change (10 * Z.pos p)%Z with (Z.pos (10 * p)). cbn [itoa_Z]. rewrite itoa_N_step by lia.
  change (N.pos (10 * p)) with (10 * N.pos p)%N. rewrite N.mul_comm, N.div_mul, N.mod_mul by lia. reflexivity.
Qed.

(** ** Reading *)
Lemma span_digits_all x r : Forall (fun c => is_digit c = true) x -> match r with c :: _ => is_digit c = false | [] => True end -> span_digits (x ++ r) = (x, r).
Proof.
  intros H Hr. induction H as [|c x Hc Hx IH]; cbn [app span_digits].
  - destruct r as [|c r]; [reflexivity|]. cbn. now rewrite Hr.
  - rewrite Hc, IH. reflexivity.
Qed.
Definition sign (neg : bool) : bytes := if neg then [45%N] else [].
Definition read (neg : bool) (n d : Z) : option f64 := match round64 n d with Some (m, e) => Some (Fin neg m e) | None => None end.
Lemma parse_int neg ds : Forall (fun c => is_digit c = true) ds -> ds <> [] -> parse_float (sign neg ++ ds) = read neg (digits_val ds) 1.
Proof.
  intros H N. unfold parse_float.
  assert (E : (match sign neg ++ ds with 45%N :: t => (true, t) | _ => (false, sign neg ++ ds) end) = (neg, ds)).
  { destruct neg; [reflexivity|]. cbn [sign app]. destruct H as [|c l Hc Hl]; [congruence|]. destruct (N.eq_dec c 45) as [->|Nc]; [discriminate|].
    clear - Nc. destruct c as [|p]; [reflexivity|]. do 6 (destruct p as [p|p|]; try reflexivity). congruence. }
  rewrite E. rewrite <- (app_nil_r ds) at 1. rewrite span_digits_all by auto. destruct ds; [congruence|]. reflexivity.
Qed.
Lemma parse_frac neg ip fp : Forall (fun c => is_digit c = true) ip -> ip <> [] -> Forall (fun c => is_digit c = true) fp ->
  parse_float (sign neg ++ ip ++ [46%N] ++ fp) = read neg (digits_val (ip ++ fp)) (10 ^ Z.of_nat (List.length fp)).
Proof.
  intros H N F. unfold parse_float.
  assert (E : forall r, (match sign neg ++ ip ++ r with 45%N :: t => (true, t) | _ => (false, sign neg ++ ip ++ r) end) = (neg, ip ++ r)).
  { intros r. destruct neg; [reflexivity|]. cbn [sign app]. destruct H as [|c l Hc Hl]; [congruence|]. destruct (N.eq_dec c 45) as [->|Nc]; [discriminate|].
    cbn [app]. clear - Nc. destruct c as [|p]; [reflexivity|]. do 6 (destruct p as [p|p|]; try reflexivity). congruence. }
  rewrite E. rewrite span_digits_all by (cbn; auto). destruct ip as [|c ip]; [congruence|]. cbn [app]. rewrite <- (app_nil_r fp) at 1.
  rewrite span_digits_all by auto. reflexivity.
Qed.

(** ** The decimal exponent *)
Lemma qz_cmp a c x y : (0 < c)%Z -> (0 < y)%Z -> (qz a c <= qz x y <-> (a * y <= x * c)%Z).
Proof.
  intros Hc Hy. rewrite qz_le by exact Hc. pose proof (qz_mul x y Hy) as E. pose proof (inj_pos c Hc). pose proof (inj_pos y Hy). rewrite Zle_Qle, !inject_Z_mult. split; intros H1.
  - assert (qz x y * inject_Z c * inject_Z y == inject_Z x * inject_Z c) by (rewrite <- E; ring). apply (Qmult_le_r _ _ (inject_Z y)) in H1; [|assumption]. lra.
  - apply (Qmult_le_r _ _ (inject_Z y)); [assumption|]. assert (qz x y * inject_Z c * inject_Z y == inject_Z x * inject_Z c) by (rewrite <- E; ring). lra.
Qed.
Lemma qz_cmp_lt a c x y : (0 < c)%Z -> (0 < y)%Z -> (qz a c < qz x y <-> (a * y < x * c)%Z).
Proof.
  intros Hc Hy. pose proof (qz_cmp x y a c Hy Hc) as H. split; intros K.
  - destruct (Z.lt_ge_cases (a * y) (x * c)); [assumption|]. exfalso. apply H in H0. lra.
  - apply Qnot_le_lt. intros K2. apply H in K2. lia.
Qed.
Lemma p10_div e : (e < 0)%Z -> p10 e == / inject_Z (10 ^ (- e)).
Proof.
  intros H. rewrite <- p10_Z by lia. pose proof (p10_inv e) as I. pose proof (p10_pos (-e)).
  setoid_replace (p10 e) with (p10 e * p10 (-e) * / p10 (-e))%Q by (field; lra). rewrite I. ring.
Qed.
Lemma find_dp_spec fuel n d s : (0 < d)%Z -> p10 (s - 1) <= qz n d -> qz n d < p10 (s + Z.of_nat fuel) ->
  p10 (find_dp fuel n d s - 1) <= qz n d < p10 (find_dp fuel n d s).
Proof.
  intros Hd. revert s. induction fuel as [|k IH]; intros s A B; cbn [find_dp].
  - split; [exact A|]. now replace (s + Z.of_nat 0)%Z with s in B by lia.
  - assert (T : ((if s <? 0 then n * 10 ^ (- s) <? d else n <? d * 10 ^ s) = true)%Z <-> qz n d < p10 s).
    { destruct (Z.ltb_spec s 0) as [L|L]; rewrite Z.ltb_lt.
      - assert (0 < 10 ^ (- s))%Z by (apply Z.pow_pos_nonneg; lia). pose proof (inj_pos _ H). rewrite p10_div by exact L.
        setoid_replace (/ inject_Z (10 ^ (- s)))%Q with (qz 1 (10 ^ (- s))) by (unfold qz; field; lra). rewrite qz_cmp_lt by assumption. lia.
      - rewrite p10_Z by exact L. rewrite <- (qz_1 (10 ^ s)), qz_cmp_lt by lia. lia. }
    destruct (if s <? 0 then n * 10 ^ (- s) <? d else n <? d * 10 ^ s)%Z.
    + split; [exact A|]. now apply T.
    + apply IH.
      * replace (s + 1 - 1)%Z with s by lia. apply Qnot_lt_le. intros K. apply T in K. discriminate.
      * now replace (s + 1 + Z.of_nat k)%Z with (s + Z.of_nat (S k))%Z by lia.
Qed.
(** 10^a <= 2^l, on integers *)
Definition le10 (a l : Z) : bool := (10 ^ Z.max a 0 * 2 ^ Z.max (- l) 0 <=? 2 ^ Z.max l 0 * 10 ^ Z.max (- a) 0)%Z.
Definition le2 (l a : Z) : bool := (2 ^ Z.max l 0 * 10 ^ Z.max (- a) 0 <=? 10 ^ Z.max a 0 * 2 ^ Z.max (- l) 0)%Z.
Lemma split_p2 l : p2 l * inject_Z (2 ^ Z.max (- l) 0) == inject_Z (2 ^ Z.max l 0).
Proof. rewrite <- !p2_Z by lia. rewrite <- p2_add. now replace (l + Z.max (- l) 0)%Z with (Z.max l 0) by lia. Qed.
Lemma split_p10 l : p10 l * inject_Z (10 ^ Z.max (- l) 0) == inject_Z (10 ^ Z.max l 0).
Proof. rewrite <- !p10_Z by lia. rewrite <- p10_add. now replace (l + Z.max (- l) 0)%Z with (Z.max l 0) by lia. Qed.
Lemma pow_pos2 a : (0 < 2 ^ Z.max a 0)%Z. Proof. apply Z.pow_pos_nonneg; lia. Qed.
Lemma pow_pos10 a : (0 < 10 ^ Z.max a 0)%Z. Proof. apply Z.pow_pos_nonneg; lia. Qed.
Lemma le10_q a l : le10 a l = true -> p10 a <= p2 l.
Proof.
  unfold le10. rewrite Z.leb_le, Zle_Qle, !inject_Z_mult, <- (split_p2 l), <- (split_p10 a). intros H.
  pose proof (inj_pos _ (pow_pos2 (-l))). pose proof (inj_pos _ (pow_pos10 (-a))).
  apply (Qmult_le_r _ _ (inject_Z (2 ^ Z.max (- l) 0) * inject_Z (10 ^ Z.max (- a) 0))); [nra|]. lra.
Qed.
Lemma le2_q l a : le2 l a = true -> p2 l <= p10 a.
Proof.
  unfold le2. rewrite Z.leb_le, Zle_Qle, !inject_Z_mult, <- (split_p2 l), <- (split_p10 a). intros H.
  pose proof (inj_pos _ (pow_pos2 (-l))). pose proof (inj_pos _ (pow_pos10 (-a))).
  apply (Qmult_le_r _ _ (inject_Z (2 ^ Z.max (- l) 0) * inject_Z (10 ^ Z.max (- a) 0))); [nra|]. lra.
Qed.
Definition start_ok (l : Z) : bool := let s := (l * 30103 / 100000 - 1)%Z in le10 (s - 1) l && le2 (l + 2) (s + 6).
Lemma start_all l : (-1100 <= l <= 1100)%Z -> start_ok l = true.
Proof.
  intros H. assert (A : forallb (fun i => start_ok (Z.of_nat i - 1100)) (seq 0 2201) = true) by (vm_compute; reflexivity).
  rewrite forallb_forall in A. specialize (A (Z.to_nat (l + 1100))). cbv beta in A. replace (Z.of_nat (Z.to_nat (l + 1100)) - 1100)%Z with l in A by lia.
  apply A, in_seq. lia.
Qed.
Lemma frac_pos m e n d : (0 < m)%Z -> frac m e = (n, d) -> (0 < n)%Z.
Proof. intros H. unfold frac. destruct (e <? 0)%Z eqn:L; intros E; inversion E; subst; [exact H|]. apply Z.ltb_ge in L. assert (0 < 2 ^ e)%Z by (apply Z.pow_pos_nonneg; lia). nia. Qed.
Lemma frac_log2 m e n d : (0 < m < 2 ^ 53)%Z -> (-1074 <= e <= 971)%Z -> frac m e = (n, d) -> (-1100 <= Z.log2 n - Z.log2 d - 1 <= 1100)%Z.
Proof.
  intros H He. unfold frac. assert (0 <= Z.log2 m <= 53)%Z. { split; [apply Z.log2_nonneg|]. change 53%Z with (Z.log2 (2 ^ 53)). apply Z.log2_le_mono. lia. }
  destruct (Z.ltb_spec e 0); intros E; inversion E; subst.
  - rewrite Z.log2_pow2 by lia. lia.
  - change (Z.log2 1) with 0%Z. rewrite Z.log2_mul_pow2 by lia. lia.
Qed.
Lemma dec_point_spec m e n d : (0 < m < 2 ^ 53)%Z -> (-1074 <= e <= 971)%Z -> frac m e = (n, d) ->
  p10 (dec_point n d - 1) <= fval m e < p10 (dec_point n d).
Proof.
  intros Hm He E. pose proof (frac_q _ _ _ _ E) as [Hd Q]. unfold fval. rewrite <- Q. pose proof (frac_pos m e n d ltac:(lia) E) as Hn.
  pose proof (start_all _ (frac_log2 m e n d Hm He E)) as S. pose proof (quot_log2 n d Hn Hd) as [A B]. unfold dec_point, start_ok in *.
  remember (Z.log2 n - Z.log2 d - 1)%Z as l. apply andb_true_iff in S as [S1 S2]. apply le10_q in S1. apply le2_q in S2.
  apply find_dp_spec; [exact Hd|lra|]. replace (Z.log2 n - Z.log2 d + 1)%Z with (l + 2)%Z in B by lia. change (Z.of_nat 6) with 6%Z. lra.
Qed.

(** ** The shortest digits *)
Lemma shortest_loop_spec n d ln ld un ud dp incl : (0 < d)%Z -> (0 < ld)%Z -> (0 < ud)%Z -> qz ln ld < qz n d < qz un ud ->
  forall fuel k D k', shortest_loop fuel k n d ln ld un ud dp incl = (D, k') ->
  p10 (dp - (k + Z.of_nat fuel - 1)) <= qz n d - qz ln ld -> (0 < fuel)%nat ->
  exists sn sd, scale10 n d (k' - dp) = (sn, sd) /\ (D = sn / sd \/ D = sn / sd + 1)%Z /\ (k <= k')%Z /\
    qz ln ld <= inject_Z D * p10 (dp - k') <= qz un ud /\ (incl = true \/ qz ln ld < inject_Z D * p10 (dp - k') < qz un ud).
Proof.
  intros Hd Hld Hud [HL HU]. induction fuel as [|fuel IH]; intros k D k' E W F; [lia|]. cbn [shortest_loop] in E.
  destruct (scale10 n d (k - dp)) as [sn sd] eqn:Es. destruct (scale10 (sn / sd) 1 (dp - k)) as [dn dd] eqn:Ed.
  destruct (scale10 (sn / sd + 1) 1 (dp - k)) as [pn pd] eqn:Ep.
  pose proof (scale10_q _ _ _ _ _ Hd Es) as [Psd Qs]. pose proof (scale10_q _ _ _ _ _ Z.lt_0_1 Ed) as [Pdd Qd]. pose proof (scale10_q _ _ _ _ _ Z.lt_0_1 Ep) as [Ppd Qp].
  rewrite qz_1 in Qd, Qp.
  assert (X : qz n d == qz sn sd * p10 (dp - k)).
  { rewrite Qs. replace (k - dp)%Z with (- (dp - k))%Z by lia. rewrite <- Qmult_assoc, (Qmult_comm (p10 _)), p10_inv. ring. }
  pose proof (p10_pos (dp - k)) as Pp. pose proof (Z.div_mod sn sd ltac:(lia)) as Dm. pose proof (Z.mod_pos_bound sn sd Psd) as Mb.
  assert (Fl : inject_Z (sn / sd) <= qz sn sd < inject_Z (sn / sd + 1)).
  { rewrite qz_ge, qz_lt by exact Psd. rewrite <- !inject_Z_mult, <- Zle_Qle, <- Zlt_Qlt. nia. }
  remember (sn / sd)%Z as fl. clear Dm Mb.
  assert (Dlow : inject_Z fl * p10 (dp - k) <= qz n d) by (rewrite X; apply Qmult_le_r; [exact Pp|apply Fl]).
  assert (Dup : qz n d < inject_Z (fl + 1) * p10 (dp - k)) by (rewrite X; apply Qmult_lt_r; [exact Pp|apply Fl]).
  remember (((ln * dd <? dn * ld) || (incl && (ln * dd <=? dn * ld)))%Z) as okd.
  remember (((pn * ud <? un * pd) || (incl && (pn * ud <=? un * pd)))%Z) as oku.
  assert (Kd : okd = true -> qz ln ld <= inject_Z fl * p10 (dp - k) /\ (incl = true \/ qz ln ld < inject_Z fl * p10 (dp - k))).
  { intros ->. symmetry in Heqokd. rewrite <- Qd. rewrite qz_cmp, qz_cmp_lt by assumption. apply orb_true_iff in Heqokd as [Heqokd|Heqokd].
    - apply Z.ltb_lt in Heqokd. split; [lia|now right].
    - apply andb_true_iff in Heqokd as [-> Heqokd]. apply Z.leb_le in Heqokd. auto. }
  assert (Ku : oku = true -> inject_Z (fl + 1) * p10 (dp - k) <= qz un ud /\ (incl = true \/ inject_Z (fl + 1) * p10 (dp - k) < qz un ud)).
  { intros ->. symmetry in Heqoku. rewrite <- Qp. rewrite qz_cmp, qz_cmp_lt by assumption. apply orb_true_iff in Heqoku as [Heqoku|Heqoku].
    - apply Z.ltb_lt in Heqoku. split; [lia|now right].
    - apply andb_true_iff in Heqoku as [-> Heqoku]. apply Z.leb_le in Heqoku. auto. }
  assert (Gd : okd = true -> qz ln ld <= inject_Z fl * p10 (dp - k) <= qz un ud /\ (incl = true \/ qz ln ld < inject_Z fl * p10 (dp - k) < qz un ud)).
  { intros O. destruct (Kd O) as [K1 [K2|K2]]; split; [split; lra|now left|split; lra|right; split; lra]. }
  assert (Gu : oku = true -> qz ln ld <= inject_Z (fl + 1) * p10 (dp - k) <= qz un ud /\ (incl = true \/ qz ln ld < inject_Z (fl + 1) * p10 (dp - k) < qz un ud)).
  { intros O. destruct (Ku O) as [K1 [K2|K2]]; split; [split; lra|now left|split; lra|right; split; lra]. }
  destruct okd eqn:Ok; [destruct oku eqn:Ou|destruct oku eqn:Ou]; cbn [andb] in E.
  - pose proof (rhe_bounds sn sd Psd) as Rb. exists sn, sd. inversion E; subst D k'. split; [exact Es|].
    assert (RR : (rhe sn sd = fl \/ rhe sn sd = fl + 1)%Z) by lia. rewrite <- Heqfl. split; [exact RR|]. split; [lia|].
    destruct RR as [-> | ->]; auto.
  - inversion E; subst D k'. exists sn, sd. rewrite <- Heqfl. split; [exact Es|]. split; [now left|]. split; [lia|]. auto.
  - inversion E; subst D k'. exists sn, sd. rewrite <- Heqfl. split; [exact Es|]. split; [now right|]. split; [lia|]. auto.
  - destruct fuel as [|fuel].
    + exfalso. replace (dp - (k + Z.of_nat 1 - 1))%Z with (dp - k)%Z in W by lia.
      assert (qz ln ld < qz dn dd). { rewrite Qd. rewrite inject_Z_plus in Dup. change (inject_Z 1) with 1 in Dup. lra. }
      rewrite qz_cmp_lt in H by assumption. apply Z.ltb_lt in H. rewrite H in Heqokd. discriminate.
    + destruct (IH (k + 1)%Z D k' E) as (sn' & sd' & H1 & H2 & H3 & H4); [now replace (k + 1 + Z.of_nat (S fuel) - 1)%Z with (k + Z.of_nat (S (S fuel)) - 1)%Z by lia|lia|].
      exists sn', sd'. split; [exact H1|]. split; [exact H2|]. split; [lia|exact H4].
Qed.
Lemma p2_step e : p2 e == (2 # 1) * p2 (e - 1).
Proof. replace e with (1 + (e - 1))%Z at 1 by lia. rewrite p2_add. rewrite (p2_Z 1) by lia. reflexivity. Qed.
Lemma fval_lo m e : fval m e - lo m e == (if ((m =? 2 ^ 52) && negb (e =? -1074))%bool%Z then p2 (e - 2) else p2 (e - 1)).
Proof.
  unfold fval, lo. destruct ((m =? 2 ^ 52) && negb (e =? -1074))%bool%Z; rewrite (p2_step e).
  - rewrite (p2_step (e - 1)). replace (e - 1 - 1)%Z with (e - 2)%Z by lia. inj. ring.
  - inj. ring.
Qed.
Lemma fval_hi m e : hi m e - fval m e == p2 (e - 1).
Proof. unfold fval, hi. rewrite (p2_step e). inj. ring. Qed.
Lemma gap_lo m e : p2 (e - 2) <= fval m e - lo m e.
Proof. rewrite fval_lo. destruct (_ && _)%bool; [lra|]. apply p2_le. lia. Qed.
Lemma in_iv_self m e : in_iv m e (fval m e).
Proof.
  pose proof (gap_lo m e). pose proof (p2_pos (e - 2)). pose proof (fval_hi m e). pose proof (p2_pos (e - 1)). unfold in_iv. split; [|right]; split; lra.
Qed.
Lemma in_iv_ext m e x y : x == y -> in_iv m e x -> in_iv m e y.
Proof. intros E [[A B] C]. unfold in_iv. rewrite E in A, B. split; [split; assumption|]. destruct C as [C|[C D]]; [now left|right]. rewrite E in C, D. auto. Qed.
Lemma floor_bounds n d dp k sn sd : (0 < d)%Z -> scale10 n d (k - dp) = (sn, sd) -> (1 <= k)%Z -> p10 (dp - 1) <= qz n d < p10 dp -> (10 ^ (k - 1) <= sn / sd < 10 ^ k)%Z.
Proof.
  intros Hd E Hk [A B]. apply scale10_q in E as [P Q]; [|exact Hd]. pose proof (p10_pos (k - dp)) as Pp.
  apply (Qmult_le_r _ _ _ Pp) in A. apply (Qmult_lt_r _ _ _ Pp) in B. rewrite <- p10_add in A, B. replace (dp - 1 + (k - dp))%Z with (k - 1)%Z in A by lia.
  replace (dp + (k - dp))%Z with k in B by lia. rewrite <- Q in A, B. rewrite p10_Z in A by lia. rewrite p10_Z in B by lia.
  rewrite qz_ge in A by exact P. rewrite qz_lt in B by exact P. rewrite <- inject_Z_mult, <- Zle_Qle in A. rewrite <- inject_Z_mult, <- Zlt_Qlt in B. split.
  - apply Z.div_le_lower_bound; lia.
  - apply Z.div_lt_upper_bound; lia.
Qed.

Lemma shortest_spec m e D k dp : (0 < m)%Z -> canon m e -> shortest m e = (D, k, dp) ->
  (1 <= k)%Z /\ (10 ^ (k - 1) <= D < 10 ^ k)%Z /\ in_iv m e (inject_Z D * p10 (dp - k)) /\
  (p10 (dp - 1) <= fval m e < p10 dp \/ (D = 1 /\ k = 1)%Z /\ fval m e < p10 (dp - 1) /\ p10 (dp - 2) <= fval m e).
Proof.
  intros Hm [C|(Mb & Eb & Mn)] E; [lia|]. unfold shortest in E. destruct (frac m e) as [n d] eqn:Ef. pose proof (frac_q _ _ _ _ Ef) as [Hd Qf].
  pose proof (dec_point_spec m e n d Mb Eb Ef) as Dp. remember (dec_point n d) as dq. clear Heqdq.
  destruct (frac (2 * m + 1) (e - 1)) as [un ud] eqn:Eu. pose proof (frac_q _ _ _ _ Eu) as [Hud Qu].
  assert (exists ln ld, (if ((m =? 2 ^ 52) && negb (e =? -1074))%bool%Z then frac (4 * m - 1) (e - 2) else frac (2 * m - 1) (e - 1)) = (ln, ld) /\ (0 < ld)%Z /\ qz ln ld == lo m e) as (ln & ld & El & Hld & Ql).
  { unfold lo. destruct (_ && _)%bool.
    - destruct (frac (4 * m - 1) (e - 2)) as [ln ld] eqn:El. apply frac_q in El as [A B]. eauto.
    - destruct (frac (2 * m - 1) (e - 1)) as [ln ld] eqn:El. apply frac_q in El as [A B]. eauto. }
  rewrite El in E. destruct (shortest_loop 20 1 n d ln ld un ud dq (Z.even m)) as [D0 k0] eqn:Es.
  change (inject_Z (2 * m + 1) * p2 (e - 1)) with (hi m e) in Qu. change (inject_Z m * p2 e) with (fval m e) in Qf.
  pose proof (gap_lo m e) as G. pose proof (p2_pos (e - 2)) as P2. pose proof (fval_hi m e) as Gh. pose proof (p2_pos (e - 1)) as P1.
  destruct (shortest_loop_spec n d ln ld un ud dq (Z.even m) Hd Hld Hud) with (fuel := 20%nat) (k := 1%Z) (D := D0) (k' := k0) as (sn & sd & S1 & S2 & S3 & S4 & S5).
  { rewrite Ql, Qu, Qf. split; lra. }
  { exact Es. }
  { rewrite Ql, Qf. apply Qle_trans with (2 := G). destruct Dp as [Dp _]. change (1 + Z.of_nat 20 - 1)%Z with 20%Z.
    assert (A : fval m e <= inject_Z (2 ^ 55) * p2 (e - 2)).
    { unfold fval. rewrite (p2_step e), (p2_step (e - 1)). replace (e - 1 - 1)%Z with (e - 2)%Z by lia.
      assert (inject_Z m <= inject_Z (2 ^ 53)) by (rewrite <- Zle_Qle; lia). change (inject_Z (2 ^ 55)) with (4 * inject_Z (2 ^ 53)). nra. }
    assert (B : p10 (dq - 1) == inject_Z (10 ^ 19) * p10 (dq - 20)). { rewrite <- p10_Z by lia. rewrite <- p10_add. now replace (19 + (dq - 20))%Z with (dq - 1)%Z by lia. }
    assert (inject_Z (2 ^ 55) <= inject_Z (10 ^ 19)) by (rewrite <- Zle_Qle; vm_compute; discriminate).
    assert (H0 : 0 < inject_Z (2 ^ 55)) by reflexivity. pose proof (p10_pos (dq - 20)).
    apply Qnot_lt_le. intros K. assert (inject_Z (2 ^ 55) * p2 (e - 2) < inject_Z (2 ^ 55) * p10 (dq - 20)) by (rewrite <- (Qmult_comm (p2 _)), <- (Qmult_comm (p10 _)); apply Qmult_lt_r; assumption). nra. }
  { lia. }
  rewrite Ql, Qu in S4, S5. assert (Iv : in_iv m e (inject_Z D0 * p10 (dq - k0))) by (split; assumption).
  assert (Fb : (10 ^ (k0 - 1) <= sn / sd < 10 ^ k0)%Z). { apply (floor_bounds n d dq k0 sn sd Hd S1 S3). rewrite Qf. exact Dp. }
  destruct (Z.eqb_spec D0 (10 ^ k0)) as [E0|E0]; inversion E; subst D k dp; clear E.
  - split; [lia|]. split; [lia|]. split.
    + eapply in_iv_ext; [|exact Iv]. rewrite E0, <- p10_Z by lia. rewrite <- p10_add. replace (k0 + (dq - k0))%Z with dq by lia. replace (dq + 1 - 1)%Z with dq by lia. change (inject_Z 1) with 1. ring.
    + right. replace (dq + 1 - 1)%Z with dq by lia. replace (dq + 1 - 2)%Z with (dq - 1)%Z by lia. repeat split; apply Dp.
  - split; [exact S3|]. split; [destruct S2; lia|]. split; [exact Iv|left; exact Dp].
Qed.

Lemma strip_zeros_spec fuel D k D' k' : (0 < D)%Z -> strip_zeros fuel D k = (D', k') -> (1 <= k)%Z -> (10 ^ (k - 1) <= D < 10 ^ k)%Z ->
  (1 <= k' <= k)%Z /\ (10 ^ (k' - 1) <= D' < 10 ^ k')%Z /\ (D = D' * 10 ^ (k - k'))%Z.
Proof.
  revert D k. induction fuel as [|f IH]; intros D k Hp E Hk H; cbn [strip_zeros] in E.
  - inversion E; subst. replace (k' - k')%Z with 0%Z by lia. lia.
  - destruct ((1 <? k) && (D mod 10 =? 0))%Z eqn:T.
    + apply andb_true_iff in T as [T1 T2]. apply Z.ltb_lt in T1. apply Z.eqb_eq in T2. pose proof (Z.div_mod D 10 ltac:(lia)) as Dm. rewrite T2 in Dm.
      assert (P1 : (10 ^ (k - 1) = 10 * 10 ^ (k - 1 - 1))%Z) by (rewrite <- Z.pow_succ_r by lia; f_equal; lia).
      assert (P2 : (10 ^ k = 10 * 10 ^ (k - 1))%Z) by (rewrite <- Z.pow_succ_r by lia; f_equal; lia).
      destruct (IH (D / 10)%Z (k - 1)%Z) as (A & B & C); [lia|exact E|lia|lia|]. split; [lia|]. split; [exact B|].
      rewrite Dm, C. replace (k - k')%Z with (Z.succ (k - 1 - k')) by lia. rewrite Z.pow_succ_r by lia. lia.
    + inversion E; subst. replace (k' - k')%Z with 0%Z by lia. lia.
Qed.

(** ** Reading back what was printed *)
Lemma read_iv neg n d m e : (0 < n)%Z -> (0 < d)%Z -> (0 < m)%Z -> canon m e -> in_iv m e (qz n d) -> read neg n d = Some (Fin neg m e).
Proof. intros. unfold read. now rewrite (round64_iv n d m e). Qed.

Ltac some_inv E := match type of E with Some ?a = Some ?c => assert (c = a) by congruence; clear E; subst c end.
Lemma fmt_g_read neg m e t : (0 < m)%Z -> canon m e -> fmt_g neg m e = Some t -> parse_float t = Some (Fin neg m e).
Proof.
  intros Hm C E. unfold fmt_g in E. destruct (Z.eqb_spec m 0); [lia|]. destruct (shortest m e) as [[D0 k0] dp] eqn:Es.
  destruct (shortest_spec m e D0 k0 dp Hm C Es) as (K0 & B0 & Iv & _).
  assert (P0 : (0 < D0)%Z). { assert (0 < 10 ^ (k0 - 1))%Z by (apply Z.pow_pos_nonneg; lia). lia. }
  destruct (strip_zeros 20 D0 k0) as [D k] eqn:Ez. destruct (strip_zeros_spec _ _ _ _ _ P0 Ez K0 B0) as (K & B & ED).
  assert (P : (0 < D)%Z). { assert (0 < 10 ^ (k - 1))%Z by (apply Z.pow_pos_nonneg; lia). lia. }
  assert (Iv' : in_iv m e (inject_Z D * p10 (dp - k))).
  { eapply in_iv_ext; [|exact Iv]. rewrite ED, inject_Z_mult, <- p10_Z by lia. rewrite <- Qmult_assoc, <- p10_add. now replace (k0 - k + (dp - k0))%Z with (dp - k)%Z by lia. }
  assert (K1 : (1 <= k)%Z) by lia. clear Iv Es ED P0 Ez K0 B0 K D0 k0. destruct ((dp - 1 <? -4) || (6 <=? dp - 1))%Z; [discriminate|].
  pose proof (itoa_Z_length D k P B ltac:(lia)) as Len. pose proof (itoa_Z_digit D ltac:(lia)) as Dg. pose proof (digits_val_itoa D ltac:(lia)) as Dv.
  assert (FR : forall j, (0 <= j)%Z -> (dp - k = - j)%Z -> read neg D (10 ^ j) = Some (Fin neg m e)).
  { intros j Hj Ej. assert (P10 : (0 < 10 ^ j)%Z) by (apply Z.pow_pos_nonneg; lia). apply read_iv; auto. eapply in_iv_ext; [|exact Iv'].
    rewrite Ej. pose proof (inj_pos _ P10). pose proof (p10_inv j). unfold qz. rewrite <- p10_Z by lia. pose proof (p10_pos j).
    setoid_replace (p10 (- j)) with (p10 j * p10 (- j) * / p10 j)%Q by (field; lra). rewrite H0. field. lra. }
  destruct (Z.leb_spec dp 0) as [L|L].
  - some_inv E. change (b "0.") with ([48%N] ++ [46%N]). rewrite <- app_assoc.
    change (if neg then [45%N] else []) with (sign neg). rewrite parse_frac; [|repeat constructor|discriminate|apply Forall_app; split; [apply zeros_digit|exact Dg]].
    rewrite !digits_val_app, digits_val_zeros, Dv. rewrite app_length, zeros_length.
    replace (digits_val [48%N] * _ + _)%Z with D by (change (digits_val [48%N]) with 0%Z; lia). apply FR; lia.
  - destruct (Z.leb_spec k dp) as [L2|L2]; some_inv E.
    + change (if neg then [45%N] else []) with (sign neg). rewrite parse_int; [|apply Forall_app; split; [exact Dg|apply zeros_digit]|intros X; apply app_eq_nil in X as [X _]; now apply itoa_Z_nonempty in X].
      rewrite digits_val_app, Dv, digits_val_zeros, zeros_length, Z2Nat.id by lia. assert (0 < 10 ^ (dp - k))%Z by (apply Z.pow_pos_nonneg; lia).
      apply read_iv; auto; [nia|lia|]. eapply in_iv_ext; [|exact Iv']. rewrite qz_1, Z.add_0_r, inject_Z_mult, <- p10_Z by lia. reflexivity.
    + change (if neg then [45%N] else []) with (sign neg). rewrite <- (firstn_skipn (Z.to_nat dp) (itoa_Z D)) in Dg. apply Forall_app in Dg as [D1 D2].
      assert (Lf : List.length (firstn (Z.to_nat dp) (itoa_Z D)) = Z.to_nat dp) by (apply firstn_length_le; lia).
      change (46%N :: skipn (Z.to_nat dp) (itoa_Z D)) with ([46%N] ++ skipn (Z.to_nat dp) (itoa_Z D)).
      rewrite parse_frac; auto; [|intros X; rewrite X in Lf; cbn in Lf; lia]. rewrite firstn_skipn, Dv, skipn_length. apply FR; lia.
Qed.

Lemma trim_right_spec s : exists j, s = trim_right [48%N] s ++ zeros j.
Proof.
  unfold trim_right. assert (E : exists j, rev s = zeros j ++ trim_left [48%N] (rev s)).
  { induction (rev s) as [|c l [j IH]]; [now exists O|]. cbn [trim_left]. destruct (mem c [48%N]) eqn:M.
    - exists (S j). cbn [zeros app]. rewrite IH at 1. f_equal. unfold mem in M. cbn in M. rewrite orb_false_r in M. apply N.eqb_eq in M. now rewrite M.
    - now exists O. }
  destruct E as [j E]. exists j. rewrite <- (rev_involutive s) at 1. rewrite E at 1. rewrite rev_app_distr. f_equal.
  clear. induction j; [reflexivity|]. cbn [zeros rev]. rewrite IHj. clear. induction j; [reflexivity|]. cbn [zeros app]. now rewrite IHj.
Qed.
Lemma trim_left_app cut x c y : mem c cut = false -> trim_left cut (x ++ c :: y) = trim_left cut x ++ c :: y.
Proof. intros M. induction x as [|a x IH]; cbn [app trim_left]; [now rewrite M|]. destruct (mem a cut); [exact IH|reflexivity]. Qed.
Lemma trim_right_app cut x c y : mem c cut = false -> trim_right cut (x ++ c :: y) = x ++ c :: trim_right cut y.
Proof.
  intros M. unfold trim_right. rewrite rev_app_distr. cbn [rev]. rewrite <- app_assoc. cbn [app]. rewrite trim_left_app by exact M.
  rewrite rev_app_distr. cbn [rev]. now rewrite rev_involutive, <- app_assoc.
Qed.
Lemma fmt_f10_read neg m e : (0 <= m)%Z -> let '(n, d) := frac m e in
  parse_float (trim_right [48%N] (fmt_f10 neg m e)) = read neg (rhe (n * 10 ^ 10) d) (10 ^ 10).
Proof.
  intros Hm. unfold fmt_f10. destruct (frac m e) as [n d] eqn:E. pose proof (frac_q _ _ _ _ E) as [Hd _].
  assert (Hn : (0 <= n)%Z). { unfold frac in E. destruct (Z.ltb_spec e 0); inversion E; subst; [lia|]. assert (0 < 2 ^ e)%Z by (apply Z.pow_pos_nonneg; lia). nia. }
  pose proof (rhe_bounds (n * 10 ^ 10) d Hd) as [Rb _]. assert (R0 : (0 <= rhe (n * 10 ^ 10) d)%Z). { assert (0 <= n * 10 ^ 10 / d)%Z by (apply Z.div_pos; lia). lia. }
  remember (rhe (n * 10 ^ 10) d) as r. clear Heqr Rb. pose proof (Z.div_mod r (10 ^ 10) ltac:(lia)) as Dm. pose proof (Z.mod_pos_bound r (10 ^ 10) ltac:(lia)) as Mb.
  assert (Q0 : (0 <= r / 10 ^ 10)%Z) by (apply Z.div_pos; lia). remember (r / 10 ^ 10)%Z as q. remember (r mod 10 ^ 10)%Z as f.
  change (if neg then [45%N] else []) with (sign neg).
  set (fp := zeros (10 - List.length (itoa_Z f)) ++ itoa_Z f).
  assert (Lf : List.length fp = 10%nat).
  { unfold fp. rewrite app_length, zeros_length. assert (List.length (itoa_Z f) <= 10)%nat; [|lia].
    destruct (Z.eq_dec f 0) as [->|Nf]; [cbn; lia|].
    assert (exists k, 1 <= k <= 10 /\ 10 ^ (k - 1) <= f < 10 ^ k)%Z as (k & Kb & Fb).
    { assert (G : forall j, (0 <= j <= 10)%Z -> (f < 10 ^ j)%Z -> exists k, (1 <= k <= j /\ 10 ^ (k - 1) <= f < 10 ^ k)%Z).
      { intros j Hj. pattern j. apply natlike_ind; [intros; change (10 ^ 0)%Z with 1%Z in *; lia| |lia]. intros x Hx IH Lt. destruct (Z.lt_ge_cases f (10 ^ x)) as [Lx|Lx].
        - destruct (IH Lx) as (k & A & B). exists k. split; [lia|exact B].
        - exists (Z.succ x). replace (Z.succ x - 1)%Z with x by lia. lia. }
      apply G; lia. }
    pose proof (itoa_Z_length f k ltac:(lia) Fb ltac:(lia)). lia. }
  assert (Fd : Forall (fun c => is_digit c = true) fp). { unfold fp. apply Forall_app. split; [apply zeros_digit|apply itoa_Z_digit; lia]. }
  assert (Vf : digits_val fp = f). { unfold fp. rewrite digits_val_app, digits_val_zeros, digits_val_itoa by lia. lia. }
  clearbody fp. change ([46%N] ++ fp) with (46%N :: fp). rewrite app_assoc, trim_right_app by reflexivity. rewrite <- app_assoc.
  destruct (trim_right_spec fp) as [j Ej]. remember (trim_right [48%N] fp) as fp'. clear Heqfp'. subst fp.
  apply Forall_app in Fd as [Fd _]. rewrite app_length, zeros_length in Lf. rewrite digits_val_app, digits_val_zeros, zeros_length in Vf.
  change (46%N :: fp') with ([46%N] ++ fp'). rewrite parse_frac; [|apply itoa_Z_digit; lia|apply itoa_Z_nonempty|exact Fd].
  rewrite digits_val_app, digits_val_itoa by lia. remember (List.length fp') as l. remember (digits_val fp') as v.
  unfold read. assert (Pl : (0 < 10 ^ Z.of_nat l)%Z) by (apply Z.pow_pos_nonneg; lia). assert (Pj : (0 < 10 ^ Z.of_nat j)%Z) by (apply Z.pow_pos_nonneg; lia).
  assert (E10 : (10 ^ 10 = 10 ^ Z.of_nat l * 10 ^ Z.of_nat j)%Z) by (rewrite <- Z.pow_add_r by lia; f_equal; lia).
  assert (V0 : (0 <= v)%Z) by nia.
  rewrite (round64_ext (q * 10 ^ Z.of_nat l + v) (10 ^ Z.of_nat l) r (10 ^ 10)); [reflexivity|nia|lia|exact Pl|lia|].
  apply Qle_antisym; rewrite qz_cmp by (lia || exact Pl); rewrite Dm, E10, <- Vf; nia.
Qed.
