(** Facts about escaping and quoting (AstUtil.v). *)
From Coq Require Import List NArith ZArith Bool String Arith Lia.
From Verif Require Import Bytes Utf8 F64 Ast Actions AstPrint AstUtil.
Import ListNotations.
Local Open Scope N_scope.

(** ** Specification *)

(** The escape sequences of Logstash: what stands after the backslash, and what
    it means. *)
Definition escape_table : list (N * N) :=
  [(DQ, DQ); (SQ, SQ); (BSL, BSL); (110, NL); (114, CR); (116, TAB)].

(** [unescapes s t]: [t] is [s] with the sequences of the table replaced from
    left to right, everything else unchanged. *)
Inductive unescapes : bytes -> bytes -> Prop :=
| un_nil : unescapes [] []
| un_seq c d s t : In (c, d) escape_table -> unescapes s t -> unescapes (BSL :: c :: s) (d :: t)
| un_plain c s t : c <> BSL -> unescapes s t -> unescapes (c :: s) (c :: t)
| un_last : unescapes [BSL] [BSL]
| un_other c s t : (forall d, ~ In (c, d) escape_table) -> unescapes s t ->
    unescapes (BSL :: c :: s) (BSL :: c :: t).

(** [v] can stand between two quote characters [q]: each [q] in it directly
    follows a backslash, and it does not end in a backslash. *)
Definition literal_value (q : N) (v : bytes) : Prop :=
  (forall x y, v = x ++ q :: y -> exists z, x = z ++ [BSL]) /\
  (forall x, v <> x ++ [BSL]).

(** A bareword: a letter or underscore, then at least one letter, digit or
    underscore. *)
Definition bareword_start (c : N) : Prop := 65 <= c <= 90 \/ 97 <= c <= 122 \/ c = 95.
Definition bareword_char (c : N) : Prop := bareword_start c \/ 48 <= c <= 57.
Definition bareword (v : bytes) : Prop :=
  exists c v', v = c :: v' /\ v' <> [] /\ bareword_start c /\ Forall bareword_char v'.

(** ** Escape and Unescape *)

Lemma unescape_escape s : unescape (escape s) = s.
Proof.
  unfold escape; induction s as [|c s IH]; cbn [flat_map]; [reflexivity|].
  unfold escape_byte.
  destruct (c =? DQ) eqn:E1; [apply N.eqb_eq in E1; subst; cbn; now f_equal|].
  destruct (c =? SQ) eqn:E2; [apply N.eqb_eq in E2; subst; cbn; now f_equal|].
  destruct (c =? BSL) eqn:E3; [apply N.eqb_eq in E3; subst; cbn; now f_equal|].
  destruct (c =? NL) eqn:E4; [apply N.eqb_eq in E4; subst; cbn; now f_equal|].
  destruct (c =? CR) eqn:E5; [apply N.eqb_eq in E5; subst; cbn; now f_equal|].
  destruct (c =? TAB) eqn:E6; [apply N.eqb_eq in E6; subst; cbn; now f_equal|].
  cbn [orb app unescape]. rewrite E3. now f_equal.
Qed.

Lemma bytes_ind2 (P : bytes -> Prop) :
  P [] -> (forall c, P [c]) -> (forall c d s, P s -> P (d :: s) -> P (c :: d :: s)) ->
  forall s, P s.
Proof.
  intros H0 H1 H2. assert (H : forall s, P s /\ forall c, P (c :: s)).
  { induction s as [|d s [IH1 IH2]]; split; auto. }
  intros s; apply H.
Qed.

Lemma unescape_spec s : unescapes s (unescape s).
Proof.
  induction s as [|c|c d s IH1 IH2] using bytes_ind2; [constructor| |].
  - cbn. destruct (c =? BSL) eqn:E.
    + apply N.eqb_eq in E; subst; apply un_last.
    + apply N.eqb_neq in E. apply un_plain; [exact E|constructor].
  - cbn [unescape]. destruct (c =? BSL) eqn:E.
    + apply N.eqb_eq in E; subst c.
      destruct (d =? NL) eqn:E1.
      * apply N.eqb_eq in E1; subst d. apply un_other; [|exact IH1].
        intros d H. cbn in H. repeat destruct H as [H|H]; inversion H.
      * unfold unescape_seq.
        destruct (d =? DQ) eqn:F1; [apply N.eqb_eq in F1; subst; cbn; apply un_seq; [cbn; tauto|exact IH1]|].
        destruct (d =? SQ) eqn:F2; [apply N.eqb_eq in F2; subst; cbn; apply un_seq; [cbn; tauto|exact IH1]|].
        destruct (d =? BSL) eqn:F3; [apply N.eqb_eq in F3; subst; cbn; apply un_seq; [cbn; tauto|exact IH1]|].
        cbn [orb].
        destruct (d =? 110) eqn:F4; [apply N.eqb_eq in F4; subst; cbn; apply un_seq; [cbn; tauto|exact IH1]|].
        destruct (d =? 114) eqn:F5; [apply N.eqb_eq in F5; subst; cbn; apply un_seq; [cbn; tauto|exact IH1]|].
        destruct (d =? 116) eqn:F6; [apply N.eqb_eq in F6; subst; cbn; apply un_seq; [cbn; tauto|exact IH1]|].
        cbn [app]. apply un_other; [|exact IH1].
        apply N.eqb_neq in F1, F2, F3, F4, F5, F6.
        intros e H. cbn in H. repeat destruct H as [H|H]; inversion H; congruence.
    + apply N.eqb_neq in E. apply un_plain; [exact E|exact IH2].
Qed.

Lemma table_fun c d e : In (c, d) escape_table -> In (c, e) escape_table -> d = e.
Proof.
  cbn; intros H1 H2.
  repeat destruct H1 as [H1|H1]; inversion H1; subst;
    repeat destruct H2 as [H2|H2]; inversion H2; subst; reflexivity.
Qed.

Lemma unescapes_fun s t u : unescapes s t -> unescapes s u -> t = u.
Proof.
  intros H; revert u; induction H; intros u Hu; inversion Hu; subst; try congruence.
  - f_equal; [eapply table_fun; eauto|auto].
  - exfalso; match goal with H : forall d, ~ In _ _ |- _ => eapply H; eauto end.
  - f_equal; auto.
  - exfalso; match goal with H : forall d, ~ In _ _ |- _ => eapply H; eauto end.
  - f_equal; f_equal; auto.
Qed.

Lemma unescape_iff s t : unescape s = t <-> unescapes s t.
Proof.
  split; [intros <-; apply unescape_spec|].
  intros H; eapply unescapes_fun; [apply unescape_spec|exact H].
Qed.

(** ** Literals *)

(** An executable form of [literal_value]: [prev] is the byte before [v]. *)
Fixpoint literal_from (q prev : N) (v : bytes) : bool :=
  match v with
  | [] => negb (prev =? BSL)
  | c :: v' => (negb (c =? q) || (prev =? BSL)) && literal_from q c v'
  end.
Definition is_literal (q : N) (v : bytes) : bool := literal_from q 0 v.

Lemma snoc_cases (x : bytes) : x = [] \/ exists y c, x = y ++ [c].
Proof. destruct x using rev_ind; [now left|right; eauto]. Qed.

Lemma literal_from_spec q p v :
  literal_from q p v = true <->
  (forall x y, v = x ++ q :: y -> (x = [] /\ p = BSL) \/ exists z, x = z ++ [BSL]) /\
  (v = [] -> p <> BSL) /\ (forall x, v <> x ++ [BSL]).
Proof.
  revert p; induction v as [|c v IH]; intros p; cbn [literal_from].
  - rewrite negb_true_iff, N.eqb_neq. split.
    + intros H; split; [|split]; auto.
      * intros x y E. destruct x; discriminate.
      * intros x E. destruct x; discriminate.
    + intros (_ & H & _); auto.
  - rewrite andb_true_iff, orb_true_iff, negb_true_iff, N.eqb_eq, N.eqb_neq, IH. split.
    + intros (H & H1 & H2 & H3). split; [|split].
      * intros x y E. destruct x as [|d x]; cbn in E; inversion E; subst.
        -- left; split; auto. destruct H; congruence.
        -- right. destruct (H1 x y eq_refl) as [[-> ->]|[z ->]].
           ++ now exists [].
           ++ now exists (d :: z).
      * discriminate.
      * intros x E. destruct x as [|d x]; cbn in E; inversion E; subst.
        -- now apply H2.
        -- now apply (H3 x).
    + intros (H1 & _ & H3). split; [|split; [|split]].
      * destruct (N.eq_dec c q) as [->|]; [|now left]. right.
        destruct (H1 [] v eq_refl) as [[_ ?]|[z Ez]]; auto. destruct z; discriminate.
      * intros x y ->. destruct (H1 (c :: x) y eq_refl) as [[E _]|[z Ez]]; [discriminate|].
        destruct z as [|d z]; cbn in Ez; inversion Ez; subst; [left; auto|right; eauto].
      * intros -> ->. now apply (H3 []).
      * intros x ->. now apply (H3 (c :: x)).
Qed.

Lemma is_literal_spec q v : is_literal q v = true <-> literal_value q v.
Proof.
  unfold is_literal, literal_value. rewrite literal_from_spec. split.
  - intros (H1 & _ & H3). split; auto. intros x y E.
    destruct (H1 x y E) as [[_ ?]|?]; [discriminate|auto].
  - intros (H1 & H3). split; [|split].
    + intros x y E; right; eauto.
    + intros _ H; discriminate H.
    + exact H3.
Qed.

(** Escaping then quoting: valid unless the text ends in a backslash. *)
Lemma literal_from_escape_byte q p c r :
  (q = DQ \/ q = SQ) -> p <> BSL ->
  literal_from q p (escape_byte c ++ r) = literal_from q (if (c =? BSL) then BSL else 0) r
  \/ c <> BSL /\ exists p', p' <> BSL /\ literal_from q p (escape_byte c ++ r) = literal_from q p' r.
Proof.
  intros Hq Hp. unfold escape_byte.
  destruct (c =? DQ) eqn:F1; [apply N.eqb_eq in F1; subst|].
  { right; split; [discriminate|]. exists DQ; split; [discriminate|]. cbn.
    destruct Hq; subst; reflexivity. }
  destruct (c =? SQ) eqn:F2; [apply N.eqb_eq in F2; subst|].
  { right; split; [discriminate|]. exists SQ; split; [discriminate|]. cbn.
    destruct Hq; subst; reflexivity. }
  destruct (c =? BSL) eqn:F3; [apply N.eqb_eq in F3; subst|].
  { left. cbn. destruct Hq; subst; reflexivity. }
  cbn [orb].
  assert (K : forall d, d <> BSL -> d <> q -> literal_from q p ([BSL; d] ++ r) = literal_from q d r).
  { intros d Hd Hdq. cbn. apply N.eqb_neq in Hdq. rewrite Hdq.
    destruct Hq; subst; reflexivity. }
  right; split; [now apply N.eqb_neq|].
  destruct (c =? NL) eqn:F4; [exists 110; split; [discriminate|apply K; [discriminate|destruct Hq; subst; discriminate]]|].
  destruct (c =? CR) eqn:F5; [exists 114; split; [discriminate|apply K; [discriminate|destruct Hq; subst; discriminate]]|].
  destruct (c =? TAB) eqn:F6; [exists 116; split; [discriminate|apply K; [discriminate|destruct Hq; subst; discriminate]]|].
  exists c; split; [now apply N.eqb_neq|]. cbn [app literal_from].
  replace (c =? q) with false; [reflexivity|].
  destruct Hq; subst; congruence.
Qed.

Lemma escape_first_not_quote q s :
  (q = DQ \/ q = SQ) -> forall p, literal_from q p (escape s) = true \/
     p = BSL /\ s = [] \/ literal_from q 0 (escape s) = false.
Proof.
  intros Hq p. destruct s as [|c s].
  - cbn. destruct (p =? BSL) eqn:E; cbn; [apply N.eqb_eq in E; auto|auto].
  - destruct (literal_from q 0 (escape (c :: s))) eqn:E; [left|auto].
    unfold escape in *. cbn [flat_map] in *. unfold escape_byte in *.
    destruct (c =? DQ) eqn:F1; [cbn in *; destruct Hq; subst; exact E|].
    destruct (c =? SQ) eqn:F2; [cbn in *; destruct Hq; subst; exact E|].
    destruct (c =? BSL) eqn:F3; [cbn in *; destruct Hq; subst; exact E|]. cbn [orb] in *.
    destruct (c =? NL) eqn:F4; [cbn in *; destruct Hq; subst; exact E|].
    destruct (c =? CR) eqn:F5; [cbn in *; destruct Hq; subst; exact E|].
    destruct (c =? TAB) eqn:F6; [cbn in *; destruct Hq; subst; exact E|].
    cbn [app literal_from] in *. apply andb_true_iff in E as [_ E].
    replace (c =? q) with false; [exact E|]. destruct Hq; subst; congruence.
Qed.

Lemma literal_escape q s :
  (q = DQ \/ q = SQ) ->
  literal_value q (escape s) <-> (forall x, s <> x ++ [BSL]).
Proof.
  intros Hq. rewrite <- is_literal_spec. unfold is_literal.
  assert (G : forall p, p <> BSL -> literal_from q p (escape s) = true <-> (forall x, s <> x ++ [BSL])).
  2:{ apply G; discriminate. }
  induction s as [|c s IH]; intros p Hp.
  - cbn. apply N.eqb_neq in Hp; rewrite Hp. split; auto. intros _ x; destruct x; discriminate.
  - unfold escape; cbn [flat_map]. fold (escape s).
    assert (T : (forall x, c :: s <> x ++ [BSL]) <-> (s = [] -> c <> BSL) /\ (forall x, s <> x ++ [BSL])).
    { split.
      - intros H; split.
        + intros -> ->. now apply (H []).
        + intros x ->. now apply (H (c :: x)).
      - intros [H1 H2] x E. destruct x as [|d x]; cbn in E; inversion E; subst; [now apply H1|now apply (H2 x)]. }
    rewrite T. destruct (literal_from_escape_byte q p c (escape s) Hq Hp) as [->|(Hc & p' & Hp' & ->)].
    + destruct (c =? BSL) eqn:Ec.
      * apply N.eqb_eq in Ec; subst c.
        destruct (escape_first_not_quote q s Hq BSL) as [E|[[_ E]|E]].
        -- rewrite E. split; [intros _|reflexivity]. split.
           ++ intros ->. discriminate.
           ++ intros x ->. assert (E2 : literal_from q 0 (escape (x ++ [BSL])) = true).
              { destruct (escape_first_not_quote q (x ++ [BSL]) Hq 0) as [A|[[_ A]|A]]; auto.
                - destruct x; discriminate.
                - destruct x as [|d x].
                  + cbn in E. destruct Hq; subst; discriminate.
                  + exfalso.
                    (* the value after a backslash and after 0 agree when the text does not start with the quote *)
                    revert A E. unfold escape. cbn [app flat_map]. unfold escape_byte.
                    destruct (d =? DQ) eqn:F1; [cbn; destruct Hq; subst; cbn; congruence|].
                    destruct (d =? SQ) eqn:F2; [cbn; destruct Hq; subst; cbn; congruence|].
                    destruct (d =? BSL) eqn:F3; [cbn; destruct Hq; subst; cbn; congruence|]. cbn [orb].
                    destruct (d =? NL) eqn:F4; [cbn; destruct Hq; subst; cbn; congruence|].
                    destruct (d =? CR) eqn:F5; [cbn; destruct Hq; subst; cbn; congruence|].
                    destruct (d =? TAB) eqn:F6; [cbn; destruct Hq; subst; cbn; congruence|].
                    cbn [app literal_from]. replace (d =? q) with false by (destruct Hq; subst; congruence).
                    cbn. congruence. }
              exact (proj1 (IH 0 ltac:(discriminate)) E2 x eq_refl).
        -- subst s. cbn. split; [discriminate|]. intros [H _]. now exfalso; apply H.
        -- split.
           ++ intros H. exfalso. destruct s as [|d s]; [discriminate|].
              assert (A : literal_from q 0 (escape (d :: s)) = true); [|congruence].
              revert H. unfold escape. cbn [app flat_map]. unfold escape_byte.
              destruct (d =? DQ) eqn:F1; [cbn; destruct Hq; subst; cbn; congruence|].
              destruct (d =? SQ) eqn:F2; [cbn; destruct Hq; subst; cbn; congruence|].
              destruct (d =? BSL) eqn:F3; [cbn; destruct Hq; subst; cbn; congruence|]. cbn [orb].
              destruct (d =? NL) eqn:F4; [cbn; destruct Hq; subst; cbn; congruence|].
              destruct (d =? CR) eqn:F5; [cbn; destruct Hq; subst; cbn; congruence|].
              destruct (d =? TAB) eqn:F6; [cbn; destruct Hq; subst; cbn; congruence|].
              cbn [app literal_from]. replace (d =? q) with false by (destruct Hq; subst; congruence).
              cbn. congruence.
           ++ intros [_ H]. pose proof (proj2 (IH 0 ltac:(discriminate)) H). congruence.
      * rewrite IH; [|discriminate]. split; [|tauto]. intros H; split; auto.
        intros _. now apply N.eqb_neq.
    + rewrite IH; auto. tauto.
Qed.
