(** When a number is too large for a float64. *)
From Coq Require Import List NArith ZArith QArith Qpower Qround Bool String Arith Lia.
From Verif Require Import Bytes F64 Ast Peg Actions Tree NumFacts Printable.
Import ListNotations.

Section Range.
Open Scope Z_scope.
Definition P970 : Z := 2 ^ 970.
Lemma P970_pos : 0 < P970.
Proof. unfold P970. apply Z.pow_pos_nonneg; lia. Qed.
Lemma P971 : 2 ^ 971 = 2 * P970.
Proof. unfold P970. now rewrite <- (Z.pow_succ_r 2 970) by lia. Qed.
Lemma P1024 : 2 ^ 1024 = 2 ^ 54 * P970.
Proof. unfold P970. now rewrite <- Z.pow_add_r by lia. Qed.
Lemma P970_eq : 2 ^ 970 = P970.
Proof. reflexivity. Qed.

Lemma rhe_z n d : 0 < d -> (2 * rhe n d - 1) * d <= 2 * n <= (2 * rhe n d + 1) * d.
Proof.
  intros H. unfold rhe. pose proof (Z.div_mod n d ltac:(lia)) as D. pose proof (Z.mod_pos_bound n d H) as M.
  set (q := n / d) in *. set (r := n mod d) in *.
  destruct (Z.ltb_spec (2 * r) d); [nia|]. destruct (Z.ltb_spec d (2 * r)); [nia|]. destruct (Z.even q); nia.
Qed.
Lemma ge_pow n d k : 0 < d -> 0 <= k -> (p2 k <= qz n d)%Q -> 2 ^ k * d <= n.
Proof.
  intros Hd Hk H. apply qz_ge in H; [|exact Hd]. rewrite p2_Z in H by exact Hk. rewrite <- inject_Z_mult, <- Zle_Qle in H. exact H.
Qed.
Lemma lt_pow n d k : 0 < d -> 0 <= k -> (qz n d < p2 k)%Q -> n < 2 ^ k * d.
Proof.
  intros Hd Hk H. apply qz_lt in H; [|exact Hd]. rewrite p2_Z in H by exact Hk. rewrite <- inject_Z_mult, <- Zlt_Qlt in H. exact H.
Qed.

Theorem round64_range n d : 0 <= n -> 0 < d -> round64 n d = None <-> (2 ^ 1024 - 2 ^ 970) * d <= n.
Proof.
  intros Hn Hd. rewrite P1024, P970_eq. pose proof P970_pos as HP.
  assert (C54 : 2 ^ 54 = 18014398509481984) by reflexivity. assert (C53 : 2 ^ 53 = 9007199254740992) by reflexivity.
  destruct (Z.eq_dec n 0) as [->|N0].
  { split; [discriminate|]. intros H. exfalso. nia. }
  assert (Hn' : 0 < n) by lia. pose proof (bexp_spec n d Hn' Hd) as [B1 B2]. rewrite round64_unfold by exact Hn'.
  set (k := bexp n d) in *. cbv zeta.
  destruct (Z_lt_le_dec k 971) as [K|K].
  - (* below 2^1023 * 2 with a small exponent: in range *)
    assert (U : n < 2 ^ 970 * 2 ^ 53 * d).
    { destruct (Z_lt_le_dec (k + 53) 0) as [W|W].
      - assert (X : (qz n d < p2 0)%Q) by (eapply Qlt_le_trans; [exact B2|apply p2_le; lia]).
        apply lt_pow in X; [|lia..]. change (2 ^ 0) with 1 in X. rewrite P970_eq. nia.
      - apply lt_pow in B2; [|lia..]. assert (2 ^ (k + 53) <= 2 ^ (970 + 53)) by (apply Z.pow_le_mono_r; lia).
        rewrite (Z.pow_add_r 2 970 53) in H by lia. nia. }
    rewrite P970_eq in U. split; [|intros; nia].
    destruct (scale2 n d (Z.max k (-1074))) as [n1 d1]. destruct (rhe n1 d1 =? 2 ^ 53).
    + destruct (2 ^ 52 =? 0); [discriminate|]. destruct (Z.ltb_spec 971 (Z.max k (-1074) + 1)); [lia|discriminate].
    + destruct (rhe n1 d1 =? 0); [discriminate|]. destruct (Z.ltb_spec 971 (Z.max k (-1074))); [lia|discriminate].
  - rewrite (Z.max_l k (-1074)) by lia. unfold scale2. destruct (Z.ltb_spec k 0); [lia|].
    apply ge_pow in B1; [|lia..]. apply lt_pow in B2; [|lia..].
    assert (D1 : 0 < d * 2 ^ k) by (apply Z.mul_pos_pos; [exact Hd|apply Z.pow_pos_nonneg; lia]).
    pose proof (rhe_z n (d * 2 ^ k) D1) as Z1. set (m := rhe n (d * 2 ^ k)) in *.
    rewrite Z.pow_add_r in B1, B2 by lia. assert (PK : 0 < 2 ^ k) by (apply Z.pow_pos_nonneg; lia).
    assert (C52 : 2 ^ 52 = 4503599627370496) by reflexivity.
    assert (M0 : m <> 0) by nia.
    destruct (Z.eq_dec k 971) as [->|K2].
    + rewrite P971 in *. destruct (Z.eqb_spec m (2 ^ 53)) as [Em|Em].
      * split; [intros _|intros _; reflexivity]. rewrite Em in Z1. nia.
      * destruct (Z.eqb_spec m 0); [contradiction|]. split; [discriminate|]. intros HH. exfalso. apply Em. unfold m.
        apply rhe_spec; [exact D1| |left; reflexivity]. rewrite P971. set (x := P970 * d).
        replace (d * (2 * P970)) with (2 * x) by (unfold x; ring).
        replace ((2 ^ 54 * P970 - P970) * d) with (2 ^ 54 * x - x) in HH by (unfold x; ring).
        replace (2 * P970 * 2 ^ 53 * d) with (2 * 2 ^ 53 * x) in B2 by (unfold x; ring). assert (0 < x) by (unfold x; nia). clearbody x. lia.
    + assert (G : 2 ^ 1024 * d <= n).
      { assert (2 ^ 972 <= 2 ^ k) by (apply Z.pow_le_mono_r; lia).
        replace (2 ^ 1024) with (2 ^ 972 * 2 ^ 52) by (now rewrite <- Z.pow_add_r by lia). nia. }
      rewrite P1024 in G. split; [intros _; nia|intros _].
      destruct (Z.eqb_spec m (2 ^ 53)).
      * destruct (Z.eqb_spec (2 ^ 52) 0); [lia|]. destruct (Z.ltb_spec 971 (k + 1)); [reflexivity|lia].
      * destruct (Z.eqb_spec m 0); [contradiction|]. destruct (Z.ltb_spec 971 k); [reflexivity|lia].
Qed.
End Range.

(** ** Texts of numbers *)

(** "-"? digits ("." digits)?, with the value of the digits without the point,
    and the number of digits after it *)
Definition number_parts (t : bytes) (digits : bytes) (k : nat) : Prop :=
  exists sg ip fp f, t = sg ++ ip ++ fp /\ (sg = [] \/ sg = [45%N]) /\ ip <> [] /\ Forall digit ip /\ Forall digit f /\
    (fp = [] /\ f = [] \/ fp = 46%N :: f) /\ digits = ip ++ f /\ k = List.length f.
(** The number without its sign is at least 2^1024 - 2^970: the least real that
    rounds to no finite float64. *)
Definition too_large (t : bytes) : Prop :=
  exists digits k, number_parts t digits k /\ ((2 ^ 1024 - 2 ^ 970) * 10 ^ Z.of_nat k <= digits_val digits)%Z.

Lemma digits_nonneg l : Forall digit l -> (0 <= digits_val l)%Z.
Proof.
  unfold digits_val. intros H. assert (K : forall acc, (0 <= acc -> 0 <= fold_left (fun acc c => acc * 10 + (Z.of_N c - 48)) l acc)%Z).
  { induction H as [|c l Hc _ IH]; intros acc Ha; cbn; [exact Ha|]. apply IH. unfold digit in Hc. lia. }
  apply K. lia.
Qed.
Lemma parse_float_parts t digits k : number_parts t digits k -> exists neg,
  parse_float t = match round64 (digits_val digits) (10 ^ Z.of_nat k) with Some (m, e) => Some (Fin neg m e) | None => None end.
Proof.
  intros (sg & ip & fp & f & -> & Hs & Hn & Hi & Hf & Hp & -> & ->).
  exists (match sg with [] => false | _ => true end).
  assert (S : exists c ip', ip = c :: ip' /\ c <> 45%N).
  { destruct ip as [|c ip']; [congruence|]. exists c, ip'. split; [reflexivity|]. inversion Hi; subst. unfold digit in *. lia. }
  assert (E : (match sg ++ ip ++ fp with 45%N :: t => (true, t) | _ => (false, sg ++ ip ++ fp) end) =
    (match sg with [] => false | _ => true end, ip ++ fp)).
  { destruct Hs as [-> | ->]; [|reflexivity]. destruct S as (c & ip' & -> & N). cbn.
    destruct c as [|p]; [reflexivity|]. repeat (destruct p as [p|p|]; try reflexivity). now destruct N. }
  unfold parse_float. rewrite E. destruct Hp as [[-> ->]| ->].
  - rewrite span_digits_app by auto. destruct S as (c & ip' & -> & _). rewrite app_nil_r. reflexivity.
  - rewrite span_digits_app; [|exact Hi|unfold digit; lia]. destruct S as (c & ip' & -> & _).
    rewrite <- (app_nil_r f) at 1. rewrite span_digits_app by auto. reflexivity.
Qed.
Theorem parse_float_range t : number_text t -> parse_float t = None <-> too_large t.
Proof.
  intros (sg & ip & fp & E & Hs & Hn & Hi & Hp).
  assert (P : exists f, number_parts t (ip ++ f) (List.length f) /\ Forall digit f).
  { destruct Hp as [->|(f & -> & Hf)]; [exists []|exists f]; (split; [|auto]).
    - exists sg, ip, [], []. repeat split; auto.
    - exists sg, ip, (46%N :: f), f. repeat split; auto. }
  destruct P as (f & P & Hf). split.
  - intros H. exists (ip ++ f), (List.length f). split; [exact P|]. destruct (parse_float_parts _ _ _ P) as [neg Q]. rewrite Q in H.
    apply round64_range; [|apply Z.pow_pos_nonneg; lia|].
    + apply digits_nonneg, Forall_app. now split.
    + destruct (round64 _ _) as [[m e]|]; [discriminate H|reflexivity].
  - intros (ds & k & P' & H). destruct (parse_float_parts _ _ _ P') as [neg ->].
    assert (Hds : Forall digit ds).
    { destruct P' as (s' & i' & p' & f' & _ & _ & _ & A & B & _ & -> & _). apply Forall_app. now split. }
    apply round64_range in H; [now rewrite H|now apply digits_nonneg|apply Z.pow_pos_nonneg; lia].
Qed.
