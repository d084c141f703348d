(** Facts about Quote and QuoteWithEscape (AstUtil.v). *)
From Coq Require Import List NArith ZArith Bool String Arith Lia.
From Verif Require Import Bytes Utf8 F64 Ast Actions AstPrint AstUtil EscapeFacts.
Import ListNotations.
Local Open Scope N_scope.

(** ** Specification *)

(** The quote character of a quote type *)
Definition quote_char (t : sat) (q : N) : Prop :=
  t = DoubleQuoted /\ q = DQ \/ t = SingleQuoted /\ q = SQ.

(** [v] has the byte [q] at position [i], not directly after a backslash *)
Definition bare_quote_at (q : N) (v : bytes) (i : nat) : Prop :=
  nth_error v i = Some q /\ (i = 0%nat \/ exists j p, i = S j /\ nth_error v j = Some p /\ p <> BSL).

(** Number of runes of a text, as Go counts them *)
Inductive rune_count : bytes -> nat -> Prop :=
| rc_nil : rune_count [] 0
| rc_cons s n : s <> [] -> rune_count (skipn (snd (decode_rune s)) s) n -> rune_count s (S n).

(** ** Quote *)

Lemma has_quote_spec q i p v :
  has_quote q i p v = true <->
  exists j, (2 <= i + j)%nat /\ nth_error v j = Some q /\
            (match j with O => p | S k => nth k v 0 end) <> BSL.
Proof.
  revert i p; induction v as [|c v IH]; intros i p; cbn [has_quote].
  - split; [discriminate|]. intros (j & _ & H & _). destruct j; discriminate.
  - rewrite orb_true_iff, !andb_true_iff, negb_true_iff, N.eqb_eq, N.eqb_neq, Nat.ltb_lt, IH.
    split.
    + intros [((-> & H) & Hp)|(j & H1 & H2 & H3)].
      * exists 0%nat. split; [lia|]. split; [reflexivity|exact Hp].
      * exists (S j). split; [lia|]. split; [exact H2|]. destruct j; cbn in *; exact H3.
    + intros (j & H1 & H2 & H3). destruct j as [|j].
      * left. cbn in H2. inversion H2; subst. repeat split; auto; lia.
      * right. exists j. split; [lia|]. split; [exact H2|]. destruct j; cbn in *; exact H3.
Qed.

Lemma has_quote_iff q v :
  has_quote q 0 0 v = true <-> exists i, (2 <= i)%nat /\ bare_quote_at q v i.
Proof.
  rewrite has_quote_spec. split.
  - intros (j & H1 & H2 & H3). exists j. split; [lia|]. split; [exact H2|]. right.
    destruct j as [|k]; [lia|]. exists k.
    destruct (nth_error v k) as [p|] eqn:E.
    + exists p. repeat split; auto. erewrite nth_error_nth in H3; eauto.
    + exfalso. apply nth_error_None in E.
      assert (H : nth_error v (S k) <> None) by congruence. apply nth_error_Some in H. lia.
  - intros (i & H1 & H2 & [->|(j & p & -> & H3 & H4)]); [lia|].
    exists (S j). split; [lia|]. split; [exact H2|]. erewrite nth_error_nth; eauto.
Qed.

Lemma quote_ok_iff t q v r :
  quote_char t q ->
  quote v t = QOk r <-> r = q :: v ++ [q] /\ ~ exists i, (2 <= i)%nat /\ bare_quote_at q v i.
Proof.
  intros Ht. assert (E : quote v t = quote_enclosed v q) by (destruct Ht as [[-> ->]|[-> ->]]; reflexivity).
  rewrite E. unfold quote_enclosed. destruct (has_quote q 0 0 v) eqn:H.
  - apply has_quote_iff in H. split; [discriminate|]. intros [_ N]; now exfalso.
  - rewrite <- has_quote_iff, H. cbn. split.
    + intros K; inversion K; subst. split; [reflexivity|congruence].
    + intros [-> _]; reflexivity.
Qed.

Lemma nth_error_split_snoc {A} (v : list A) j p c :
  nth_error v j = Some p -> nth_error v (S j) = Some c ->
  exists x y, v = x ++ p :: c :: y /\ List.length x = j.
Proof.
  intros H1 H2. apply nth_error_split in H1 as (x & y & -> & L).
  exists x. rewrite nth_error_app2 in H2 by lia. replace (S j - List.length x)%nat with 1%nat in H2 by lia.
  cbn in H2. destruct y as [|d y]; [discriminate|]. cbn in H2; inversion H2; subst. eauto.
Qed.

Lemma literal_no_bare q v : literal_value q v <->
  (forall i, ~ bare_quote_at q v i) /\ (forall x, v <> x ++ [BSL]).
Proof.
  unfold literal_value. split; intros [H1 H2]; split; auto.
  - intros i (Hi & [->|(j & p & -> & Hj & Hp)]).
    + destruct v as [|c v]; [discriminate|]. cbn in Hi; inversion Hi; subst.
      destruct (H1 [] v eq_refl) as [z Ez]. destruct z; discriminate.
    + destruct (nth_error_split_snoc _ _ _ _ Hj Hi) as (x & y & -> & _).
      destruct (H1 (x ++ [p]) y) as [z Ez].
      * now rewrite <- app_assoc.
      * apply app_inj_tail in Ez as [_ ->]. congruence.
  - intros x y ->. destruct (snoc_cases x) as [->|(z & c & ->)].
    + exfalso. apply (H1 0%nat). split; [reflexivity|now left].
    + destruct (N.eq_dec c BSL) as [->|Hc]; [eauto|]. exfalso.
      apply (H1 (S (List.length z))). split.
      * rewrite <- app_assoc. rewrite nth_error_app2 by lia.
        replace (S (List.length z) - List.length z)%nat with 1%nat by lia. reflexivity.
      * right. exists (List.length z), c. split; [reflexivity|]. split; [|exact Hc].
        rewrite <- app_assoc. rewrite nth_error_app2 by lia. now rewrite Nat.sub_diag.
Qed.

(** ** escapeQuotes *)

(** The loop without revisiting: same result. *)
Fixpoint esc (q : N) (done todo : bytes) : bytes :=
  match todo with
  | [] => []
  | c :: t => if must_escape q done c then BSL :: c :: esc q (c :: BSL :: done) t
              else c :: esc q (c :: done) t
  end.

Lemma must_escape_after_bsl q done c : must_escape q (BSL :: done) c = false.
Proof. unfold must_escape. destruct done; [apply andb_false_r|]. cbn. apply andb_false_r. Qed.

Lemma escape_quotes_loop_spec q k todo done :
  (2 * List.length todo < k)%nat ->
  escape_quotes_loop k q done todo = rev done ++ esc q done todo.
Proof.
  revert k done; induction todo as [|c t IH]; intros k done Hk; (destruct k as [|k]; [lia|]); cbn.
  - now rewrite app_nil_r.
  - destruct (must_escape q done c) eqn:E.
    + cbn in Hk. destruct k as [|k]; [lia|]. cbn. rewrite must_escape_after_bsl.
      rewrite IH by lia. cbn. now rewrite <- !app_assoc.
    + cbn in Hk. rewrite IH by lia. cbn. now rewrite <- app_assoc.
Qed.

Lemma escape_quotes_esc v q : escape_quotes v q = esc q [] v.
Proof. unfold escape_quotes. rewrite escape_quotes_loop_spec by lia. reflexivity. Qed.

Lemma last_indep {A} (l : list A) (x y : A) : l <> [] -> last l x = last l y.
Proof.
  induction l as [|a l IH]; [congruence|]. intros _. destruct l; [reflexivity|].
  cbn in *. apply IH. discriminate.
Qed.

(** Once two bytes are out, the loop escapes every bare quote. *)
Lemma esc_literal q done p p2 todo :
  q <> BSL -> done = p :: p2 ->  p2 <> [] ->
  literal_from q p (esc q done todo) = literal_from q (last todo p) [].
Proof.
  intros Hq. revert p p2 done; induction todo as [|c t IH]; intros p p2 done -> H2; [reflexivity|].
  cbn [esc]. destruct (must_escape q (p :: p2) c) eqn:E.
  - unfold must_escape in E. apply andb_true_iff in E as [E1 E2]. apply N.eqb_eq in E1; subst c.
    destruct p2 as [|p2 p3]; [congruence|]. cbn [literal_from].
    replace (BSL =? q) with false by (symmetry; apply N.eqb_neq; congruence).
    cbn [negb orb andb]. rewrite N.eqb_refl. replace (BSL =? BSL) with true by reflexivity. cbn [negb orb andb].
    rewrite (IH q (BSL :: p :: p2 :: p3)); [|reflexivity|discriminate].
    destruct t as [|e t]; [reflexivity|].
    match goal with |- literal_from q (last _ ?z) [] = _ => rewrite (last_indep (e :: t) z p) by discriminate end. reflexivity.
  - cbn [literal_from]. rewrite (IH c (p :: p2)) by (reflexivity || discriminate).
    replace (negb (c =? q) || (p =? BSL)) with true.
    + cbn [andb]. destruct t as [|e t]; [reflexivity|].
    match goal with |- literal_from q (last _ ?z) [] = _ => rewrite (last_indep (e :: t) z p) by discriminate end. reflexivity.
    + symmetry. unfold must_escape in E. destruct p2; [congruence|].
      apply andb_false_iff in E as [E|E].
      * now rewrite E.
      * apply negb_false_iff in E. rewrite E. apply orb_true_r.
Qed.

Lemma ends_last (c : N) v : (forall x, c :: v <> x ++ [BSL]) <-> last v c <> BSL.
Proof.
  revert c; induction v as [|d v IH]; intros c.
  - cbn. split.
    + intros H ->. now apply (H []).
    + intros H x E. destruct x as [|e x]; cbn in E; inversion E; subst; [congruence|]. destruct x; discriminate.
  - assert (E : last (d :: v) c = last v d) by (destruct v as [|e v]; [reflexivity|exact (last_indep (e :: v) c d ltac:(discriminate))]).
    rewrite E, <- IH. split.
    + intros H x K. apply (H (c :: x)). cbn. now rewrite K.
    + intros H x K. destruct x as [|e x]; cbn in K; inversion K; subst. now apply (H x).
Qed.

Lemma literal_from_nil q p : literal_from q p [] = true <-> p <> BSL.
Proof. cbn. now rewrite negb_true_iff, N.eqb_neq. Qed.

Lemma escape_quotes_literal q v :
  q <> BSL ->
  literal_value q (escape_quotes v q) <->
  (forall x, v <> x ++ [BSL]) /\ ~ (exists c y, v = c :: q :: y /\ c <> q /\ c <> BSL).
Proof.
  intros Hq. rewrite <- is_literal_spec, escape_quotes_esc. unfold is_literal.
  destruct v as [|c v].
  { cbn. split; [|reflexivity]. intros _; split.
    - intros x; destruct x; discriminate.
    - intros (c & y & E & _). discriminate. }
  rewrite ends_last.
  assert (Eb : (BSL =? q) = false) by (apply N.eqb_neq; congruence).
  destruct (N.eq_dec c q) as [->|Hc].
  - cbn [esc]. unfold must_escape at 1. rewrite N.eqb_refl. cbn [andb literal_from].
    rewrite Eb, N.eqb_refl. replace (BSL =? BSL) with true by reflexivity. cbn [negb orb andb].
    rewrite (esc_literal q [q; BSL] q [BSL]) by (assumption || reflexivity || discriminate).
    rewrite literal_from_nil. split; [|tauto]. intros H; split; [exact H|].
    intros (d & y & E & H1 & _). inversion E; congruence.
  - cbn [esc]. unfold must_escape at 1.
    replace (c =? q) with false by (symmetry; now apply N.eqb_neq).
    cbn [andb literal_from]. replace (c =? q) with false by (symmetry; now apply N.eqb_neq).
    cbn [negb orb andb].
    destruct v as [|d t].
    + cbn [esc last]. rewrite literal_from_nil. split; [|tauto]. intros H; split; [exact H|].
      intros (e & y & E & _). discriminate.
    + assert (E : last (d :: t) c = last t d) by (destruct t as [|e t]; [reflexivity|exact (last_indep (e :: t) c d ltac:(discriminate))]).
      rewrite E. cbn [esc]. unfold must_escape at 1. rewrite andb_false_r. cbn [literal_from].
      rewrite (esc_literal q [d; c] d [c]) by (assumption || reflexivity || discriminate).
      rewrite andb_true_iff, literal_from_nil, orb_true_iff, negb_true_iff, N.eqb_eq, N.eqb_neq. split.
      * intros [H1 H2]. split; [exact H2|]. intros (e & y & K & H3 & H4). inversion K; subst.
        destruct H1; congruence.
      * intros [H1 H2]. split; [|exact H1]. destruct (N.eq_dec d q) as [->|]; [|now left]. right.
        destruct (N.eq_dec c BSL); [assumption|]. exfalso. apply H2. eauto.
Qed.

(** A text that is already a valid literal value is not changed. *)
Lemma esc_valid q done todo :
  literal_from q (hd 0 done) todo = true -> (done = [] -> hd 0 todo <> q) ->
  esc q done todo = todo.
Proof.
  revert done; induction todo as [|c t IH]; intros done H Hd; [reflexivity|].
  cbn [esc literal_from] in *. apply andb_true_iff in H as [H1 H2].
  replace (must_escape q done c) with false.
  - f_equal. apply IH; [exact H2|discriminate].
  - symmetry. unfold must_escape. destruct (c =? q) eqn:E; [|reflexivity]. cbn [andb].
    cbn in H1. destruct done as [|p [|p2 p3]].
    + apply N.eqb_eq in E. cbn in Hd. exfalso. now apply Hd.
    + reflexivity.
    + cbn in H1. rewrite H1. reflexivity.
Qed.
Lemma escape_quotes_valid q v : literal_value q v -> escape_quotes v q = v.
Proof.
  intros H. rewrite escape_quotes_esc. pose proof H as K. apply is_literal_spec in K.
  destruct v as [|c v]; [reflexivity|]. apply esc_valid; [exact K|]. intros _. cbn. intros ->.
  destruct H as [H _]. destruct (H [] v eq_refl) as [z Ez]. destruct z; discriminate.
Qed.

(** ** Barewords *)

Lemma word_start_spec c : word_start c = true <-> bareword_start c.
Proof.
  unfold word_start, is_upper, is_lower, bareword_start.
  rewrite !orb_true_iff, !andb_true_iff, !N.leb_le, N.eqb_eq. tauto.
Qed.
Lemma word_char_spec c : word_char c = true <-> bareword_char c.
Proof.
  unfold word_char, bareword_char. rewrite orb_true_iff, word_start_spec.
  unfold is_digit. rewrite andb_true_iff, !N.leb_le. tauto.
Qed.
Lemma is_bareword_spec v : is_bareword v = true <-> bareword v.
Proof.
  unfold bareword. destruct v as [|c [|d v]]; cbn [is_bareword].
  - split; [discriminate|]. intros (c & v & E & _). discriminate.
  - split; [discriminate|]. intros (d & v & E & H & _). inversion E; congruence.
  - rewrite andb_true_iff, word_start_spec, forallb_forall. split.
    + intros [H1 H2]. exists c, (d :: v). repeat split; auto; [discriminate|].
      apply Forall_forall. intros x Hx. apply word_char_spec. auto.
    + intros (e & w & E & _ & H1 & H2). inversion E; subst. split; [exact H1|].
      intros x Hx. apply word_char_spec. rewrite Forall_forall in H2. auto.
Qed.

Lemma quote_bareword_iff v r : quote v Bareword = QOk r <-> bareword v /\ r = v.
Proof.
  cbn. rewrite <- is_bareword_spec. destruct (is_bareword v); split; try discriminate; try easy.
  - intros H; inversion H; auto.
  - intros [_ ->]; reflexivity.
Qed.

Lemma decode_width s : s <> [] -> (1 <= snd (decode_rune s) <= List.length s)%nat.
Proof.
  destruct s as [|c0 s1]; [congruence|]. intros _. cbn [decode_rune].
  repeat match goal with
  | |- context [if ?x then _ else _] => destruct x
  | |- context [match ?x with [] => _ | _ :: _ => _ end] => destruct x
  end; cbn; lia.
Qed.

Lemma decode_not_digit c s : is_digit c = false -> is_digit (fst (decode_rune (c :: s))) = false.
Proof.
  intros H. cbn [decode_rune]. destruct (c <? 128) eqn:E; [exact H|].
  apply N.ltb_ge in E.
  assert (K : forall r, 128 <= r -> is_digit r = false).
  { intros r Hr. unfold is_digit. apply andb_false_iff. right. apply N.leb_gt. lia. }
  unfold in_range, cont in *.
  repeat match goal with
  | |- context [if ?x then _ else _] => let F := fresh "F" in destruct x eqn:F
  | |- context [match ?x with [] => _ | _ :: _ => _ end] => destruct x
  end; cbn [fst]; apply K; unfold RuneError; try lia;
  repeat match goal with
  | H : _ && _ = true |- _ => apply andb_true_iff in H as [? ?]
  | H : (_ <=? _) = true |- _ => apply N.leb_le in H
  | H : (_ =? _) = true |- _ => apply N.eqb_eq in H
  | H : (_ =? _) = false |- _ => apply N.eqb_neq in H
  end; try lia.
Qed.

Lemma bareword_map_char r : bareword_char (bareword_map r).
Proof.
  unfold bareword_map, bareword_char, bareword_start.
  destruct (is_digit r) eqn:E1; [unfold is_digit in E1; apply andb_true_iff in E1 as [A B]; apply N.leb_le in A, B; lia|].
  destruct (is_upper r) eqn:E2; [unfold is_upper in E2; apply andb_true_iff in E2 as [A B]; apply N.leb_le in A, B; lia|].
  destruct (is_lower r) eqn:E3; [unfold is_lower in E3; apply andb_true_iff in E3 as [A B]; apply N.leb_le in A, B; lia|].
  lia.
Qed.
Lemma bareword_map_start r : is_digit r = false -> bareword_start (bareword_map r).
Proof.
  intros H. unfold bareword_map. rewrite H. unfold bareword_start.
  destruct (is_upper r) eqn:E2; [unfold is_upper in E2; apply andb_true_iff in E2 as [A B]; apply N.leb_le in A, B; lia|].
  destruct (is_lower r) eqn:E3; [unfold is_lower in E3; apply andb_true_iff in E3 as [A B]; apply N.leb_le in A, B; lia|].
  lia.
Qed.

Lemma map_runes_count k f s n :
  (List.length s <= k)%nat -> rune_count s n -> List.length (map_runes k f s) = n.
Proof.
  intros Hk H; revert k Hk; induction H as [|s n Hs H IH]; intros k Hk.
  - destruct k; reflexivity.
  - pose proof (decode_width s Hs) as W. destruct s as [|c s]; [congruence|].
    destruct k as [|k]; [cbn in Hk; lia|]. cbn [map_runes].
    destruct (decode_rune (c :: s)) as [r w] eqn:E. cbn [snd] in *. cbn [List.length]. f_equal.
    apply IH. rewrite skipn_length. lia.
Qed.
Lemma map_runes_forall k f s (P : N -> Prop) : (forall r, P (f r)) -> Forall P (map_runes k f s).
Proof.
  intros H. revert s; induction k as [|k IH]; intros s; cbn; [constructor|].
  destruct s as [|c s]; [constructor|]. destruct (decode_rune (c :: s)). constructor; auto.
Qed.
Lemma rune_count_fun s n m : rune_count s n -> rune_count s m -> n = m.
Proof.
  intros H; revert m; induction H; intros m Hm; inversion Hm; subst; try congruence; auto.
Qed.
Lemma rune_count_ex s : exists n, rune_count s n.
Proof.
  assert (G : forall k s, (List.length s <= k)%nat -> exists n, rune_count s n).
  { induction k as [|k IH]; intros t Ht.
    - destruct t; [|cbn in Ht; lia]. exists 0%nat; constructor.
    - destruct t as [|c t]; [exists 0%nat; constructor|].
      pose proof (decode_width (c :: t) ltac:(discriminate)) as W.
      destruct (IH (skipn (snd (decode_rune (c :: t))) (c :: t))) as [n Hn].
      + rewrite skipn_length. lia.
      + exists (S n). constructor; [discriminate|exact Hn]. }
  apply (G (List.length s)); lia.
Qed.

Definition undigit (c : N) : N := if is_digit c then 95 else c.
Lemma undigit_not_digit c : is_digit (undigit c) = false.
Proof. unfold undigit. destruct (is_digit c) eqn:E; [reflexivity|exact E]. Qed.
Lemma rune_count_undigit c s n : rune_count (c :: s) n -> rune_count (undigit c :: s) n.
Proof.
  unfold undigit. destruct (is_digit c) eqn:E; [|auto]. intros H. inversion H as [|x m Hx H1]; subst.
  constructor; [discriminate|].
  assert (K : c <? 128 = true).
  { unfold is_digit in E. apply andb_true_iff in E as [A B]. apply N.leb_le in A, B. apply N.ltb_lt. lia. }
  cbn [decode_rune] in *. rewrite K in H1. exact H1.
Qed.

Lemma escape_bareword_count v n : rune_count v n -> List.length (escape_bareword v) = n.
Proof.
  intros H. destruct v as [|c v]; [inversion H; subst; [reflexivity|congruence]|].
  unfold escape_bareword. apply map_runes_count; [cbn; lia|]. now apply rune_count_undigit.
Qed.

Lemma escape_bareword_shape v n :
  rune_count v n -> (bareword (escape_bareword v) <-> (2 <= n)%nat).
Proof.
  intros H. pose proof (escape_bareword_count v n H) as L. split.
  - intros (c & w & E & Hw & _). rewrite E in L. cbn in L. destruct w; [congruence|]. cbn in L. lia.
  - intros Hn. destruct v as [|c v]; [inversion H; subst; [lia|congruence]|].
    unfold escape_bareword in *. fold (undigit c) in *.
    cbn [List.length map_runes] in *. destruct (decode_rune (undigit c :: v)) as [r w] eqn:E.
    exists (bareword_map r), (map_runes (List.length v) bareword_map (skipn w (undigit c :: v))).
    split; [reflexivity|]. split; [|split].
    + intros K. rewrite K in L. cbn in L. lia.
    + apply bareword_map_start. replace r with (fst (decode_rune (undigit c :: v))) by (now rewrite E).
      apply decode_not_digit. apply undigit_not_digit.
    + apply map_runes_forall. apply bareword_map_char.
Qed.

Lemma word_char_map c : bareword_char c -> bareword_map c = c /\ (c <? 128) = true.
Proof.
  unfold bareword_char, bareword_start. intros H. split; [|apply N.ltb_lt; lia].
  unfold bareword_map, is_digit, is_upper, is_lower.
  destruct ((48 <=? c) && (c <=? 57)) eqn:E1; [reflexivity|].
  destruct ((65 <=? c) && (c <=? 90)) eqn:E2; [reflexivity|].
  destruct ((97 <=? c) && (c <=? 122)) eqn:E3; [reflexivity|].
  apply andb_false_iff in E1, E2, E3. rewrite !N.leb_gt in *. lia.
Qed.
Lemma map_runes_word k s : (List.length s <= k)%nat -> Forall bareword_char s -> map_runes k bareword_map s = s.
Proof.
  revert k; induction s as [|c s IH]; intros k Hk H; [destruct k; reflexivity|].
  destruct k as [|k]; [cbn in Hk; lia|]. inversion H; subst.
  destruct (word_char_map c) as [E1 E2]; auto. cbn [map_runes decode_rune]. rewrite E2.
  cbn [skipn]. rewrite E1. f_equal. apply IH; [cbn in Hk; lia|auto].
Qed.
Lemma escape_bareword_id v : bareword v -> escape_bareword v = v.
Proof.
  intros (c & w & -> & Hw & Hc & H). unfold escape_bareword.
  replace (is_digit c) with false.
  - apply map_runes_word; [reflexivity|]. constructor; [now left|exact H].
  - symmetry. unfold is_digit, bareword_start in *. apply andb_false_iff. rewrite !N.leb_gt. lia.
Qed.

(** ** Statements for the Properties file *)

Lemma quote_valid t q v r :
  quote_char t q -> ~ bare_quote_at q v 0 -> ~ bare_quote_at q v 1 -> (forall x, v <> x ++ [BSL]) ->
  (quote v t = QOk r <-> r = q :: v ++ [q] /\ literal_value q v).
Proof.
  intros Ht H0 H1 Hl. rewrite (quote_ok_iff t q v r Ht), literal_no_bare.
  split; intros [E K]; (split; [exact E|]).
  - split; [|exact Hl]. intros i Hi. destruct i as [|[|i]]; auto. apply K. exists (S (S i)). split; [lia|exact Hi].
  - intros (i & _ & Hi). destruct K as [K _]. exact (K i Hi).
Qed.

Lemma quote_accepts_literals t q v : quote_char t q -> literal_value q v -> quote v t = QOk (q :: v ++ [q]).
Proof.
  intros Ht H. apply (quote_ok_iff t q v _ Ht). split; [reflexivity|].
  apply literal_no_bare in H as [H _]. intros (i & _ & Hi). exact (H i Hi).
Qed.

(** [w] is [v] with backslashes inserted before some of the quotes [q] *)
Inductive backslashed (q : N) : bytes -> bytes -> Prop :=
| bs_nil : backslashed q [] []
| bs_keep c v w : backslashed q v w -> backslashed q (c :: v) (c :: w)
| bs_esc v w : backslashed q v w -> backslashed q (q :: v) (BSL :: q :: w).
Lemma esc_backslashed q todo : forall done, backslashed q todo (esc q done todo).
Proof.
  induction todo as [|c t IH]; intros done; cbn [esc]; [constructor|].
  destruct (must_escape q done c) eqn:E; [|now constructor].
  unfold must_escape in E. apply andb_true_iff in E as [E _]. apply N.eqb_eq in E. subst c. now constructor.
Qed.

Lemma quote_with_escape_literal t q v :
  quote_char t q ->
  exists w, quote_with_escape v t = QOk (q :: w ++ [q]) /\
    (literal_value q w <-> (forall x, v <> x ++ [BSL]) /\ ~ (exists c y, v = c :: q :: y /\ c <> q /\ c <> BSL)) /\
    backslashed q v w /\ (literal_value q v -> w = v).
Proof.
  intros Ht. exists (escape_quotes v q). split; [|split; [|split]].
  - destruct Ht as [[-> ->]|[-> ->]]; reflexivity.
  - apply escape_quotes_literal. destruct Ht as [[-> ->]|[-> ->]]; discriminate.
  - rewrite escape_quotes_esc. apply esc_backslashed.
  - apply escape_quotes_valid.
Qed.

(** Bareword quoting *)
Lemma quote_with_escape_bareword v n :
  rune_count v n ->
  exists w, quote_with_escape v Bareword = QOk w /\ List.length w = n /\
    (bareword w <-> 2 <= n)%nat /\ (bareword v -> w = v).
Proof.
  intros H. exists (escape_bareword v). split; [reflexivity|]. split; [now apply escape_bareword_count|].
  split; [now apply escape_bareword_shape|apply escape_bareword_id].
Qed.
