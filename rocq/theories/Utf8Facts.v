(** UTF-8: the encoding of RFC 3629 and what the decoder of Utf8.v accepts. *)
From Coq Require Import List NArith ZArith Bool Arith Lia ZifyN.
From Verif Require Import Bytes Utf8 QuoteFacts.
Import ListNotations.
Local Open Scope N_scope.
Ltac Zify.zify_post_hook ::= Z.div_mod_to_equations.

(** ** Specification (independent of the decoder) *)

(** Unicode scalar values *)
Definition scalar (r : N) : Prop := r < 55296 \/ 57344 <= r < 1114112.

(** The UTF-8 encoding of a scalar value (RFC 3629, section 3) *)
Definition utf8_encode (r : N) : bytes :=
  if r <? 128 then [r]
  else if r <? 2048 then [192 + r / 64; 128 + r mod 64]
  else if r <? 65536 then [224 + r / 4096; 128 + (r / 64) mod 64; 128 + r mod 64]
  else [240 + r / 262144; 128 + (r / 4096) mod 64; 128 + (r / 64) mod 64; 128 + r mod 64].

(** A byte sequence is valid UTF-8 if it is the concatenation of the encodings
    of scalar values. *)
Definition utf8_text (s : bytes) : Prop :=
  exists rs, Forall scalar rs /\ s = List.concat (map utf8_encode rs).

(** ** The decoder decodes encodings and nothing else *)

Ltac bcases := repeat match goal with
  | H : context [if ?x then _ else _] |- _ => destruct x eqn:?
  | |- context [if ?x then _ else _] => destruct x eqn:?
  end.
Ltac b2p := unfold in_range, cont in *; repeat match goal with
  | H : _ && _ = true |- _ => apply andb_true_iff in H as [? ?]
  | H : _ && _ = false |- _ => apply andb_false_iff in H
  | H : (_ <? _) = true |- _ => apply N.ltb_lt in H
  | H : (_ <? _) = false |- _ => apply N.ltb_ge in H
  | H : (_ <=? _) = true |- _ => apply N.leb_le in H
  | H : (_ <=? _) = false |- _ => apply N.leb_gt in H
  | H : (_ =? _) = true |- _ => apply N.eqb_eq in H
  | H : (_ =? _) = false |- _ => apply N.eqb_neq in H
  end.

Lemma in_range_iff lo hi c : in_range lo hi c = true <-> lo <= c <= hi.
Proof. unfold in_range. rewrite andb_true_iff, !N.leb_le. reflexivity. Qed.
Lemma in_range_t lo hi c : lo <= c <= hi -> in_range lo hi c = true.
Proof. apply in_range_iff. Qed.
Lemma in_range_f lo hi c : ~ (lo <= c <= hi) -> in_range lo hi c = false.
Proof. intros H. destruct (in_range lo hi c) eqn:E; auto. apply in_range_iff in E. tauto. Qed.
Lemma ltb_t x y : x < y -> (x <? y) = true. Proof. apply N.ltb_lt. Qed.
Lemma ltb_f x y : y <= x -> (x <? y) = false. Proof. apply N.ltb_ge. Qed.

Lemma decode_encode r t : scalar r -> decode_rune (utf8_encode r ++ t) = (r, List.length (utf8_encode r)).
Proof.
  intros Hs. unfold utf8_encode, scalar in *.
  destruct (N.ltb_spec r 128); [|destruct (N.ltb_spec r 2048); [|destruct (N.ltb_spec r 65536)]]; cbn [app decode_rune length].
  - rewrite ltb_t by lia. reflexivity.
  - rewrite ltb_f by lia. rewrite in_range_t by lia. unfold cont. rewrite in_range_t by lia.
    f_equal. lia.
  - rewrite ltb_f by lia. rewrite in_range_f by lia. rewrite in_range_t by lia. unfold cont.
    rewrite (in_range_t 128 191) by lia. rewrite andb_true_r.
    rewrite in_range_t; [f_equal; lia|].
    destruct (N.eqb_spec (224 + r / 4096) 224); destruct (N.eqb_spec (224 + r / 4096) 237); lia.
  - rewrite ltb_f by lia. rewrite in_range_f by lia. rewrite (in_range_f 224) by lia. rewrite (in_range_t 240) by lia.
    unfold cont. rewrite !(in_range_t 128 191) by lia. rewrite !andb_true_r.
    rewrite in_range_t; [f_equal; lia|].
    destruct (N.eqb_spec (240 + r / 262144) 240); destruct (N.eqb_spec (240 + r / 262144) 244); lia.
Qed.

Lemma decode_good s : s <> [] -> bad_rune s = false ->
  exists r t, scalar r /\ s = utf8_encode r ++ t /\ decode_rune s = (r, List.length (utf8_encode r)).
Proof.
  intros Hs Hb.
  enough (exists r t, scalar r /\ s = utf8_encode r ++ t) as (r & t & H1 & ->).
  { exists r, t. split; [exact H1|]. split; [reflexivity|]. now apply decode_encode. }
  unfold bad_rune in Hb. destruct s as [|c0 s1]; [congruence|]. cbn [decode_rune] in Hb.
  destruct (N.ltb_spec c0 128).
  { exists c0, s1. split; [unfold scalar; lia|]. unfold utf8_encode. now rewrite ltb_t. }
  destruct (in_range 194 223 c0) eqn:R1.
  { apply in_range_iff in R1. destruct s1 as [|c1 s1]; [discriminate|]. destruct (cont c1) eqn:C1; [|discriminate].
    apply in_range_iff in C1. exists ((c0 - 192) * 64 + (c1 - 128)), s1. split; [unfold scalar; lia|].
    unfold utf8_encode. rewrite ltb_f by lia. rewrite ltb_t by lia. cbn [app]. f_equal; [lia|f_equal; lia]. }
  destruct (in_range 224 239 c0) eqn:R2.
  { apply in_range_iff in R2. destruct s1 as [|c1 [|c2 s1]]; try discriminate.
    destruct (in_range _ _ c1 && cont c2) eqn:C; [|discriminate]. apply andb_true_iff in C as [C1 C2].
    apply in_range_iff in C1, C2.
    assert (B : 128 <= c1 <= 191 /\ (c0 = 224 -> 160 <= c1) /\ (c0 = 237 -> c1 <= 159)).
    { destruct (N.eqb_spec c0 224); destruct (N.eqb_spec c0 237); lia. }
    clear C1. destruct B as (B1 & B2 & B3).
    exists ((c0 - 224) * 4096 + (c1 - 128) * 64 + (c2 - 128)), s1. split; [unfold scalar; lia|].
    unfold utf8_encode. rewrite ltb_f by lia. rewrite ltb_f by lia. rewrite ltb_t by lia.
    cbn [app]. f_equal; [lia|f_equal; [lia|f_equal; lia]]. }
  destruct (in_range 240 244 c0) eqn:R3.
  { apply in_range_iff in R3. destruct s1 as [|c1 [|c2 [|c3 s1]]]; try discriminate.
    destruct (in_range _ _ c1 && cont c2 && cont c3) eqn:C; [|discriminate].
    apply andb_true_iff in C as [C C3]. apply andb_true_iff in C as [C1 C2].
    apply in_range_iff in C1, C2, C3.
    assert (B : 128 <= c1 <= 191 /\ (c0 = 240 -> 144 <= c1) /\ (c0 = 244 -> c1 <= 143)).
    { destruct (N.eqb_spec c0 240); destruct (N.eqb_spec c0 244); lia. }
    clear C1. destruct B as (B1 & B2 & B3).
    exists ((c0 - 240) * 262144 + (c1 - 128) * 4096 + (c2 - 128) * 64 + (c3 - 128)), s1. split; [unfold scalar; lia|].
    unfold utf8_encode. rewrite ltb_f by lia. rewrite ltb_f by lia. rewrite ltb_f by lia.
    cbn [app]. f_equal; [lia|f_equal; [lia|f_equal; [lia|f_equal; lia]]]. }
  discriminate.
Qed.

Lemma encode_nonempty r : utf8_encode r <> [].
Proof. unfold utf8_encode. repeat destruct (_ <? _); discriminate. Qed.
Lemma encode_not_bad r t : scalar r -> bad_rune (utf8_encode r ++ t) = false.
Proof.
  intros H. unfold bad_rune. rewrite decode_encode by exact H.
  destruct (N.eqb_spec r RuneError) as [->|]; reflexivity.
Qed.
Lemma utf8_nil : utf8_text [].
Proof. exists []. split; auto. Qed.
Lemma utf8_cons r t : scalar r -> utf8_text t -> utf8_text (utf8_encode r ++ t).
Proof. intros H (rs & H1 & ->). exists (r :: rs). split; auto. Qed.
Lemma utf8_inv s : utf8_text s -> s = [] \/ exists r t, scalar r /\ s = utf8_encode r ++ t /\ utf8_text t.
Proof.
  intros ([|r rs] & H & ->); [now left|right]. inversion H; subst. exists r, (List.concat (map utf8_encode rs)).
  split; auto. split; [reflexivity|]. exists rs; auto.
Qed.
