(** Points of the input: what the parser's positions mean. *)
From Coq Require Import List NArith Bool String Arith Lia.
From Verif Require Import Bytes Utf8 F64 Ast Peg Actions Engine Parser QuoteFacts.
Import ListNotations.

(** ** Specification *)

(** [runes_to data k off l]: the rune number [k] of the input (counting from 0,
    the end of the input being the last, with the rune U+FFFD) starts at byte
    [off], and [l] are the runes number 0 to [k]. *)
Inductive runes_to (data : bytes) : nat -> nat -> list N -> Prop :=
| rt_start : runes_to data 0 0 [fst (decode_rune data)]
| rt_next k off l : runes_to data k off l -> off < List.length data ->
    let off' := off + snd (decode_rune (skipn off data)) in
    runes_to data (S k) off' (l ++ [fst (decode_rune (skipn off' data))]).

(** The part of a list after its last newline *)
Definition after_last_nl (l m : list N) : Prop :=
  ~ In NL m /\ (l = m \/ exists x, l = x ++ NL :: m).
Definition count_nl (l : list N) : nat := count_occ N.eq_dec l NL.

(** The position [p] is right: its offset is a rune boundary, its line is one
    plus the number of newlines up to and including that place, its column the
    number of runes since the last of them. *)
Definition true_pos (data : bytes) (p : position) : Prop :=
  p_off p <= List.length data /\
  exists k l m, runes_to data k (p_off p) l /\
    p_line p = 1 + count_nl l /\ after_last_nl l m /\ p_col p = List.length m.

(** ** Points *)

Inductive Reach (data : bytes) : point -> Prop :=
| reach_start : Reach data (start_pt data)
| reach_next p : Reach data p -> pt_rest p <> [] -> Reach data (advance_pt p).

Lemma advance_rest p : pt_rest (advance_pt p) = skipn (snd (decode_rune (pt_rest p))) (pt_rest p).
Proof. unfold advance_pt. now destruct (fst _ =? NL)%N. Qed.
Lemma advance_off p : p_off (pt_pos (advance_pt p)) = p_off (pt_pos p) + snd (decode_rune (pt_rest p)).
Proof. unfold advance_pt. now destruct (fst _ =? NL)%N. Qed.
Lemma start_rest data : pt_rest (start_pt data) = data.
Proof. unfold start_pt. now destruct (_ =? NL)%N. Qed.
Lemma start_off data : p_off (pt_pos (start_pt data)) = 0.
Proof. unfold start_pt. now destruct (_ =? NL)%N. Qed.

Lemma skipn_skipn' {A} n m (l : list A) : skipn n (skipn m l) = skipn (m + n) l.
Proof.
  revert l; induction m as [|m IH]; intros l; [reflexivity|].
  destruct l; [cbn; now rewrite skipn_nil|]. cbn. apply IH.
Qed.

Lemma reach_rest data p : Reach data p -> pt_rest p = skipn (p_off (pt_pos p)) data.
Proof.
  induction 1 as [|p H IH Hn].
  - now rewrite start_rest, start_off.
  - rewrite advance_rest, advance_off, IH, skipn_skipn'. now rewrite <- IH.
Qed.
Lemma reach_len data p : Reach data p -> p_off (pt_pos p) + List.length (pt_rest p) = List.length data.
Proof.
  induction 1 as [|p H IH Hn].
  - rewrite start_off, start_rest. reflexivity.
  - rewrite advance_rest, advance_off, skipn_length.
    pose proof (decode_width (pt_rest p) Hn). lia.
Qed.
Lemma advance_gt p : pt_rest p <> [] -> p_off (pt_pos p) < p_off (pt_pos (advance_pt p)).
Proof. intros H. rewrite advance_off. pose proof (decode_width _ H). lia. Qed.

(** [Steps p q]: [q] is reached from [p] by reading *)
Inductive Steps : point -> point -> Prop :=
| steps_refl p : Steps p p
| steps_next p q : Steps p q -> pt_rest q <> [] -> Steps p (advance_pt q).

Lemma steps_trans p q r : Steps p q -> Steps q r -> Steps p r.
Proof. intros H; induction 1; [exact H|constructor; auto]. Qed.
Lemma steps_one p : pt_rest p <> [] -> Steps p (advance_pt p).
Proof. intros H. constructor; [constructor|exact H]. Qed.
Lemma reach_steps data p : Reach data p <-> Steps (start_pt data) p.
Proof.
  split.
  - induction 1; [apply steps_refl|now apply steps_next].
  - intros H. remember (start_pt data) as q eqn:E. induction H; subst; [apply reach_start|apply reach_next; auto].
Qed.
Lemma steps_reach data p q : Reach data p -> Steps p q -> Reach data q.
Proof. intros H; induction 1; [exact H|constructor; auto]. Qed.
Lemma steps_off p q : Steps p q -> p_off (pt_pos p) <= p_off (pt_pos q).
Proof.
  induction 1 as [|p q H IH Hn]; [reflexivity|].
  pose proof (advance_gt q Hn). lia.
Qed.
Lemma steps_first p q : Steps p q -> p = q \/ (pt_rest p <> [] /\ Steps (advance_pt p) q).
Proof.
  induction 1 as [|p q H IH Hn]; [now left|]. right.
  destruct IH as [->|[H1 H2]]; [split; [exact Hn|constructor]|].
  split; [exact H1|constructor; auto].
Qed.
(** The points form a chain *)
Lemma steps_linear p q r : Steps p q -> Steps p r -> Steps q r \/ Steps r q.
Proof.
  intros H; revert r; induction H as [|p q H IH Hn]; intros r Hr; [now left|].
  destruct (IH r Hr) as [K|K].
  - apply steps_first in K as [<-|[_ K]]; [right; now apply steps_one|now left].
  - right. constructor; auto.
Qed.
Lemma steps_eq p q : Steps p q -> p_off (pt_pos p) = p_off (pt_pos q) -> p = q.
Proof.
  intros H E. apply steps_first in H as [->|[H1 H2]]; [reflexivity|].
  apply steps_off in H2. pose proof (advance_gt p H1). lia.
Qed.
Lemma reach_eq data p q : Reach data p -> Reach data q -> p_off (pt_pos p) = p_off (pt_pos q) -> p = q.
Proof.
  rewrite !reach_steps. intros Hp Hq E.
  destruct (steps_linear _ _ _ Hp Hq) as [H|H]; [now apply steps_eq|symmetry; now apply steps_eq].
Qed.
Lemma reach_steps_le data p q : Reach data p -> Reach data q -> p_off (pt_pos p) <= p_off (pt_pos q) -> Steps p q.
Proof.
  rewrite !reach_steps. intros Hp Hq E.
  destruct (steps_linear _ _ _ Hp Hq) as [H|H]; [exact H|].
  pose proof (steps_off _ _ H). assert (q = p) by (apply steps_eq; [exact H|lia]). subst. constructor.
Qed.

(** ** Positions are right *)

Lemma after_last_nl_snoc l m c :
  after_last_nl l m -> after_last_nl (l ++ [c]) (if (c =? NL)%N then [] else m ++ [c]).
Proof.
  intros [H1 H2]. destruct (N.eqb_spec c NL) as [->|Hc].
  - split; [intros []|]. right. exists l. reflexivity.
  - split.
    + rewrite in_app_iff. intros [K|[K|[]]]; congruence.
    + destruct H2 as [->|(x & ->)]; [now left|right]. exists x. now rewrite <- app_assoc.
Qed.
Lemma count_nl_snoc l c : count_nl (l ++ [c]) = count_nl l + (if (c =? NL)%N then 1 else 0).
Proof.
  unfold count_nl. rewrite count_occ_app. cbn. destruct (N.eq_dec c NL) as [->|H]; [reflexivity|].
  apply N.eqb_neq in H. now rewrite H.
Qed.

Lemma reach_true_pos data p : Reach data p -> true_pos data (pt_pos p).
Proof.
  intros H. split; [pose proof (reach_len _ _ H); lia|].
  induction H as [|p H IH Hn].
  - exists 0, [fst (decode_rune data)], (if (fst (decode_rune data) =? NL)%N then [] else [fst (decode_rune data)]).
    rewrite start_off. split; [constructor|]. unfold start_pt, count_nl. cbn [count_occ].
    destruct (N.eqb_spec (fst (decode_rune data)) NL) as [->|E].
    + cbn. split; [reflexivity|]. split; [|reflexivity]. split; [intros []|right]. now exists [].
    + destruct (N.eq_dec _ NL); [congruence|]. cbn. split; [reflexivity|]. split; [|reflexivity].
      split; [intros [K|[]]; congruence|now left].
  - destruct IH as (k & l & m & Hl & E1 & E2 & E3).
    pose proof (reach_rest _ _ H) as R.
    exists (S k), (l ++ [fst (decode_rune (pt_rest (advance_pt p)))]),
      (if (fst (decode_rune (pt_rest (advance_pt p))) =? NL)%N then [] else m ++ [fst (decode_rune (pt_rest (advance_pt p)))]).
    assert (A : runes_to data (S k) (p_off (pt_pos (advance_pt p))) (l ++ [fst (decode_rune (pt_rest (advance_pt p)))])).
    { rewrite advance_rest, advance_off, R, skipn_skipn'. apply rt_next; [exact Hl|].
      pose proof (reach_len _ _ H). destruct (pt_rest p); [congruence|]. cbn in *. lia. }
    split; [exact A|]. rewrite count_nl_snoc.
    assert (P : p_line (pt_pos (advance_pt p)) =
       p_line (pt_pos p) + (if (fst (decode_rune (pt_rest (advance_pt p))) =? NL)%N then 1 else 0) /\
      p_col (pt_pos (advance_pt p)) =
       if (fst (decode_rune (pt_rest (advance_pt p))) =? NL)%N then 0 else S (p_col (pt_pos p))).
    { rewrite advance_rest. unfold advance_pt. destruct (fst _ =? NL)%N; cbn; lia. }
    destruct P as [-> ->]. split; [lia|]. split; [now apply after_last_nl_snoc|].
    destruct (_ =? NL)%N; [reflexivity|]. rewrite app_length, E3. cbn. lia.
Qed.

(** The specification determines line and column from the offset. *)
Lemma runes_to_fun data k o1 l1 o2 l2 : runes_to data k o1 l1 -> runes_to data k o2 l2 -> o1 = o2 /\ l1 = l2.
Proof.
  intros H1; revert o2 l2; induction H1 as [|k off l H IH Hl]; intros o2 l2 H2; inversion H2; subst; [auto|].
  match goal with H' : runes_to data k _ _ |- _ => destruct (IH _ _ H') as [-> ->] end. auto.
Qed.
Lemma runes_to_lt data k1 o1 l1 k2 o2 l2 :
  runes_to data k1 o1 l1 -> runes_to data k2 o2 l2 -> k1 < k2 -> o1 < o2.
Proof.
  intros H1 H2. revert k1 o1 l1 H1. induction H2 as [|k off l H IH Hl]; intros k1 o1 l1 H1 Hk; [lia|].
  assert (off < off + snd (decode_rune (skipn off data))).
  { pose proof (decode_width (skipn off data)). destruct (skipn off data) eqn:E.
    - apply (f_equal (@List.length N)) in E. rewrite skipn_length in E. cbn in E. lia.
    - specialize (H0 ltac:(discriminate)). lia. }
  destruct (Nat.eq_dec k1 k) as [->|Hne].
  - destruct (runes_to_fun _ _ _ _ _ _ H1 H) as [-> _]. lia.
  - assert (o1 < off) by (eapply IH; eauto; lia). lia.
Qed.
Lemma after_last_nl_fun l m m' : after_last_nl l m -> after_last_nl l m' -> m = m'.
Proof.
  assert (G : forall x y (m m' : list N), ~ In NL m -> ~ In NL m' -> x ++ NL :: m = y ++ NL :: m' -> m = m').
  { induction x as [|c x IH]; intros [|d y] a a' Ha Ha' E; cbn in E; inversion E; subst; auto.
    - exfalso; apply Ha. rewrite in_app_iff. right; now left.
    - exfalso; apply Ha'. rewrite in_app_iff. right; now left.
    - eauto. }
  intros [H1 [E1|(x & E1)]] [H2 [E2|(y & E2)]]; subst.
  - reflexivity.
  - exfalso; apply H1. rewrite in_app_iff. right; now left.
  - exfalso; apply H2. rewrite in_app_iff. right; now left.
  - eapply G; eauto.
Qed.
Lemma true_pos_fun data p q : true_pos data p -> true_pos data q -> p_off p = p_off q -> p = q.
Proof.
  intros (_ & k & l & m & A1 & A2 & A3 & A4) (_ & k' & l' & m' & B1 & B2 & B3 & B4) E.
  rewrite E in A1.
  assert (k = k').
  { destruct (Nat.lt_trichotomy k k') as [H|[H|H]]; [|exact H|].
    - pose proof (runes_to_lt _ _ _ _ _ _ _ A1 B1 H). lia.
    - pose proof (runes_to_lt _ _ _ _ _ _ _ B1 A1 H). lia. }
  subst k'. destruct (runes_to_fun _ _ _ _ _ _ A1 B1) as [_ <-].
  rewrite (after_last_nl_fun _ _ _ A3 B3) in A4. destruct p, q; cbn in *. congruence.
Qed.
