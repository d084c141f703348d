(** With Memoize every expression of the grammar is evaluated at most once at each
    offset. *)
From Coq Require Import List NArith Bool String Arith Lia.
From Verif Require Import Bytes Utf8 F64 Ast Peg Actions Engine Parser GrammarGen QuoteFacts PosFacts Run EngineFacts
  Termination RunInv HistFacts ParseFacts LimitFacts Memo.
Import ListNotations.

(** ** Nodes of the grammar *)

(** The nodes of the expression [e] at [path] of the rule [rule] *)
Fixpoint nodes_of (rule : string) (path : list nat) (e : expr) : list (node * expr) :=
  ((rule, Some path), e) ::
  match e with
  | EAct _ e | ELab _ e | ENot e | EPlus e | EStar e | EOpt e => nodes_of rule (0 :: path) e
  | EChoice l | ESeq l =>
      (fix go (i : nat) (l : list expr) :=
         match l with [] => [] | x :: l' => nodes_of rule (i :: path) x ++ go (S i) l' end) 0 l
  | _ => []
  end.
Fixpoint nodes_list (rule : string) (path : list nat) (i : nat) (l : list expr) : list (node * expr) :=
  match l with [] => [] | x :: l' => nodes_of rule (i :: path) x ++ nodes_list rule path (S i) l' end.
Lemma nodes_choice rule path l : nodes_of rule path (EChoice l) = ((rule, Some path), EChoice l) :: nodes_list rule path 0 l.
Proof. cbn [nodes_of]. f_equal. generalize 0. induction l as [|x l IH]; intros i; cbn; [reflexivity|now rewrite IH]. Qed.
Lemma nodes_seq rule path l : nodes_of rule path (ESeq l) = ((rule, Some path), ESeq l) :: nodes_list rule path 0 l.
Proof. cbn [nodes_of]. f_equal. generalize 0. induction l as [|x l IH]; intros i; cbn; [reflexivity|now rewrite IH]. Qed.
Lemma nodes_self rule path e : In ((rule, Some path), e) (nodes_of rule path e).
Proof. destruct e; cbn; auto. Qed.
Definition all_nodes (g : grammar) : list (node * expr) := flat_map (fun x => nodes_of (fst x) [] (snd x)) g.

Lemma node_eqb_spec x y : reflect (x = y) (node_eqb x y).
Proof.
  destruct x as [a [p|]], y as [c [q|]]; unfold node_eqb; cbn [fst snd]; try (right; congruence).
  - destruct (list_eq_dec Nat.eq_dec p q) as [->|E]; cbn; [|right; congruence].
    destruct (String.eqb_spec a c) as [->|E]; constructor; congruence.
  - destruct (String.eqb_spec a c) as [->|E]; constructor; congruence.
Qed.

(** ** Counting *)
Section Count.
  Context {A : Type}.
  Definition count (p : A -> bool) (l : list A) : nat := List.length (filter p l).
  Lemma count_le p q l : (forall x, In x l -> p x = true -> q x = true) -> count p l <= count q l.
  Proof.
    unfold count. induction l as [|x l IH]; intros H; cbn; [lia|].
    assert (K : List.length (filter p l) <= List.length (filter q l)) by (apply IH; intros; apply H; cbn; auto).
    destruct (p x) eqn:E; cbn; [rewrite (H x); cbn; auto; lia|]. destruct (q x); cbn; lia.
  Qed.
  Lemma count_lt p q l x : (forall x, In x l -> p x = true -> q x = true) -> In x l -> p x = false -> q x = true ->
    count p l < count q l.
  Proof.
    unfold count. induction l as [|y l IH]; intros H Hx Hp Hq; [destruct Hx|]. cbn.
    assert (H' : forall z, In z l -> p z = true -> q z = true) by (intros; apply H; cbn; auto).
    pose proof (count_le p q l H') as K. unfold count in K.
    destruct Hx as [->|Hx].
    - rewrite Hp, Hq. cbn. lia.
    - specialize (IH H' Hx Hp Hq). destruct (p y) eqn:E; cbn; [rewrite (H y); cbn; auto; lia|]. destruct (q y); cbn; lia.
  Qed.
  Lemma count_all p l : count p l <= List.length l.
  Proof. unfold count. induction l as [|x l IH]; cbn; [lia|]. destruct (p x); cbn; lia. Qed.
  (** changes only inside [q] *)
  Lemma count_frame (p q u u' : A -> bool) l :
    (forall x, In x l -> q x = true -> p x = true) -> (forall x, In x l -> q x = false -> u' x = u x) ->
    count (fun x => p x && u' x) l + count (fun x => q x && u x) l =
    count (fun x => p x && u x) l + count (fun x => q x && u' x) l.
  Proof.
    unfold count. induction l as [|x l IH]; intros H1 H2; [reflexivity|]. cbn [filter].
    assert (K := IH (fun y Hy => H1 y (or_intror Hy)) (fun y Hy => H2 y (or_intror Hy))).
    specialize (H1 x (or_introl eq_refl)). specialize (H2 x (or_introl eq_refl)).
    destruct (q x) eqn:Q; [rewrite (H1 eq_refl)|rewrite (H2 eq_refl)]; cbn [andb].
    - destruct (u x), (u' x); cbn [List.length]; lia.
    - destruct (p x && u x); cbn [List.length]; lia.
  Qed.
End Count.

Lemma prim_cnt o g rule e en s r : prim_out o g rule e en s = Some r -> out_cnt r = s_cnt s.
Proof.
  intros P.
  assert (Fa : forall x p w s, s_cnt (fail_at x p w s) = s_cnt s).
  { intros. unfold fail_at. destruct (Bool.eqb _ _); auto. destruct (_ <? _); auto. now destruct (_ <? _). }
  assert (Re : forall p s, s_cnt (restore p s) = s_cnt s) by (intros; unfold restore; now destruct (_ =? _)).
  assert (Rd : forall rule s, s_cnt (read o rule s) = s_cnt s).
  { intros. unfold read, check_rune. now destruct (_ && _). }
  assert (Pe : forall t s, s_cnt (push_error t s) = s_cnt s).
  { intros. unfold push_error. destruct (s_ff s0); auto. destruct (_ <? _); auto. destruct (_ =? _); auto. now destruct (existsb _ _). }
  destruct e; cbn [prim_out] in P; try discriminate; try (injection P as <-).
  + destruct p; cbn; auto.
  + destruct c; cbn; [now destruct (s_warns s)|now destruct (_ && _)].
  + destruct (at_eof _); unfold out_cnt; now rewrite Fa, ?Rd.
  + destruct (_ && _); unfold out_cnt; now rewrite Fa, ?Rd.
  + generalize (s_pt s) as p. revert s; induction runes as [|c rs IH]; intros s p; cbn [lit_loop].
    * unfold out_cnt. now rewrite Fa.
    * destruct (_ =? _)%N; [rewrite IH; apply Rd|]. unfold out_cnt. now rewrite Re, Fa.
  + destruct (find_rule name g); [discriminate|]. injection P as <-. reflexivity.
Qed.
Lemma restore_cnt p s : s_cnt (restore p s) = s_cnt s.
Proof. unfold restore. now destruct (_ =? _). Qed.

(** ** The invariant *)
Section Bound.
  Variable g : grammar.
  Variable data : bytes.
  Variable nt : string -> bool.
  Variable rk : string -> nat.
  Variable K : nat.
  Variable nodes : list (node * expr).
  Notation ld := (ld nt rk).
  Notation lds := (lds nt rk).
  Notation wf := (wf nt rk K).
  Notation off s := (p_off (pt_pos (s_pt s))).
  Notation len s := (List.length (pt_rest (s_pt s))).

  Hypothesis Hg : grammar_lits_ok g = true.
  Hypothesis Hnt : forall n e, find_rule n g = Some e -> nt n = false -> nul nt e = false.
  Hypothesis Hrk : forall n e, find_rule n g = Some e -> ld e <= rk n /\ wf e = true.
  Hypothesis HK : 1 <= K.
  Hypothesis Hnodes : forall n e, find_rule n g = Some e -> incl (nodes_of n [] e) nodes.
  Hypothesis Hfun : forall x e e', In (x, e) nodes -> In (x, e') nodes -> ld e = ld e' /\ nul nt e = nul nt e'.

  Definition key := ((node * expr) * nat)%type.
  Definition keys : list key := list_prod nodes (seq 0 (S (List.length data))).
  (** the results evaluation from [f] of an expression of rank [L] may set *)
  Definition within (f L : nat) (k : key) : bool :=
    (f <? snd k) || ((f =? snd k) && (ld (snd (fst k)) <=? L)).
  Definition unset (m : memo) (k : key) : bool :=
    match assoc (fst (fst k)) (m (snd k)) with None => true | Some _ => false end.
  Definition open (m : memo) (f L : nat) : nat := count (fun k => within f L k && unset m k) keys.

  Definition frame (f L : nat) (m m' : memo) : Prop :=
    forall x e f', In (x, e) nodes -> within f L ((x, e), f') = false -> assoc x (m' f') = assoc x (m f').
  Definition good_entry (x : node) (f : nat) (t : tuple) : Prop :=
    Reach data (t_end t) /\ f <= p_off (pt_pos (t_end t)) /\
    (t_ok t = false -> p_off (pt_pos (t_end t)) = f) /\
    (t_ok t = true -> forall e, In (x, e) nodes -> nul nt e = false -> f < p_off (pt_pos (t_end t))) /\
    (t_ok t = true -> forall n, x = (n, None) -> nt n = false -> f < p_off (pt_pos (t_end t))).
  Definition good (m : memo) : Prop := forall x f t, assoc x (m f) = Some t -> good_entry x f t.

  Definition spent (f L : nat) (s : st) (m : memo) (s' : st) (m' : memo) : Prop :=
    good m' /\ frame f L m m' /\ N.to_nat (s_cnt s') + open m' f L <= N.to_nat (s_cnt s) + open m f L.

  Lemma spent_refl f L s m s' : good m -> s_cnt s' = s_cnt s -> spent f L s m s' m.
  Proof. intros H E. split; [exact H|]. split; [intros x e f' _ _; reflexivity|]. rewrite E. lia. Qed.
  Lemma spent_trans f L s m s1 m1 s2 m2 : spent f L s m s1 m1 -> spent f L s1 m1 s2 m2 -> spent f L s m s2 m2.
  Proof.
    intros (G1 & F1 & C1) (G2 & F2 & C2). split; [exact G2|]. split; [|lia].
    intros x e f' Hx H. rewrite (F2 x e), (F1 x e); auto.
  Qed.
  Definition inside (f1 L1 f L : nat) : Prop := f < f1 \/ (f1 = f /\ L1 <= L).
  Lemma within_inside f1 L1 f L k : inside f1 L1 f L -> within f1 L1 k = true -> within f L k = true.
  Proof.
    unfold within, inside. rewrite !orb_true_iff, !andb_true_iff, !Nat.ltb_lt, !Nat.eqb_eq, !Nat.leb_le. lia.
  Qed.
  Lemma spent_inside f1 L1 f L s m s' m' : inside f1 L1 f L -> spent f1 L1 s m s' m' -> spent f L s m s' m'.
  Proof.
    intros H (G1 & F1 & C1). split; [exact G1|]. split.
    - intros x e f' Hx E. apply (F1 x e); [exact Hx|]. destruct (within f1 L1 (x, e, f')) eqn:W; [|reflexivity].
      rewrite (within_inside _ _ _ _ _ H W) in E. discriminate.
    - unfold open in *. 
      pose proof (count_frame (within f L) (within f1 L1) (unset m) (unset m') keys) as Q.
      assert (Q' := Q (fun k _ => within_inside _ _ _ _ k H)). clear Q. 
      assert (E : forall k, In k keys -> within f1 L1 k = false -> unset m' k = unset m k).
      { intros [[x e] f'] Hk W. unfold unset. cbn [fst snd]. rewrite (F1 x e); auto.
        unfold keys in Hk. apply in_prod_iff in Hk. tauto. }
      specialize (Q' E). lia.
  Qed.
  Lemma spent_cnt f L s0 s m s' m' s2 : s_cnt s0 = s_cnt s -> s_cnt s2 = s_cnt s' -> spent f L s m s' m' -> spent f L s0 m s2 m'.
  Proof. intros E1 E2 (G1 & F1 & C1). split; [exact G1|]. split; [exact F1|]. rewrite E1, E2. exact C1. Qed.
  Lemma reach_key s x e : Reach data (s_pt s) -> In (x, e) nodes -> In (x, e, off s) keys.
  Proof.
    intros H Hx. unfold keys. apply in_prod_iff. split; [exact Hx|]. apply in_seq. pose proof (reach_len _ _ H). lia.
  Qed.
  Lemma open_inside m f1 L1 f L : inside f1 L1 f L -> open m f1 L1 <= open m f L.
  Proof.
    intros H. apply count_le. intros k _. rewrite !andb_true_iff. intros [A B]. split; [eapply within_inside; eauto|exact B].
  Qed.
  (** a node that has no result is counted at its rank, not below *)
  Lemma open_miss m s x e L : Reach data (s_pt s) -> In (x, e) nodes -> assoc x (m (off s)) = None -> L < ld e ->
    open m (off s) L < open m (off s) (ld e).
  Proof.
    intros H Hx E HL. apply (count_lt _ _ _ (x, e, off s)).
    - intros k _. rewrite !andb_true_iff. intros [A B]. split; [|exact B]. eapply within_inside; eauto. right. lia.
    - now apply reach_key.
    - unfold within. cbn [fst snd]. rewrite Nat.ltb_irrefl, Nat.eqb_refl. cbn. apply andb_false_iff. left. apply Nat.leb_gt. lia.
    - unfold within, unset. cbn [fst snd]. rewrite Nat.ltb_irrefl, Nat.eqb_refl, E. cbn. rewrite Nat.leb_refl. reflexivity.
  Qed.
  Lemma assoc_set p x t m y f : assoc y (set_memo p x t m f) =
    if (f =? p_off (pt_pos p)) && node_eqb y x then Some t else assoc y (m f).
  Proof. unfold set_memo. destruct (_ =? _); cbn [andb assoc]; reflexivity. Qed.

  (** the result of a node is added *)
  Lemma spent_set s x e t L m s' m' :
    Reach data (s_pt s) -> In (x, e) nodes -> assoc x (m (off s)) = None -> L < ld e ->
    good_entry x (off s) t -> spent (off s) L (tick s) m s' m' ->
    spent (off s) (ld e) s m s' (set_memo (s_pt s) x t m').
  Proof.
    intros Hs Hx Hm HL Ht H.
    assert (Hx' : assoc x (m' (off s)) = None).
    { destruct H as (_ & F & _). rewrite (F x e); auto. unfold within. cbn [fst snd].
      rewrite Nat.ltb_irrefl, Nat.eqb_refl. cbn. apply Nat.leb_gt. lia. }
    assert (H' : spent (off s) (ld e) (tick s) m s' m') by (eapply spent_inside; [|exact H]; right; lia).
    destruct H' as (G & F & C). split; [|split].
    - intros y f t'. rewrite assoc_set. destruct (Nat.eqb_spec f (off s)) as [->|_]; cbn [andb]; [|apply G].
      destruct (node_eqb_spec y x) as [->|_]; [|apply G]. intros [= <-]. exact Ht.
    - intros y e' f Hy W. rewrite assoc_set. destruct (Nat.eqb_spec f (off s)) as [->|_]; cbn [andb]; [|now apply (F y e')].
      destruct (node_eqb_spec y x) as [->|_]; [|now apply (F y e')]. exfalso.
      destruct (Hfun x e e' Hx Hy) as [E _]. revert W. unfold within. cbn [fst snd].
      rewrite Nat.ltb_irrefl, Nat.eqb_refl, E, Nat.leb_refl. discriminate.
    - cbn [s_cnt tick set_cnt] in C.
      assert (open (set_memo (s_pt s) x t m') (off s) (ld e) < open m' (off s) (ld e)).
      { apply (count_lt _ _ _ (x, e, off s)).
        - intros [[y e'] f] _. unfold unset. cbn [fst snd]. rewrite assoc_set, !andb_true_iff. intros [A B]. split; [exact A|].
          destruct (_ && _); [discriminate|exact B].
        - now apply reach_key.
        - apply andb_false_iff. right. unfold unset. cbn [fst snd]. rewrite assoc_set, Nat.eqb_refl.
          destruct (node_eqb_spec x x); [reflexivity|congruence].
        - unfold within, unset. cbn [fst snd]. rewrite Nat.ltb_irrefl, Nat.eqb_refl, Hx'. cbn. rewrite Nat.leb_refl. reflexivity. }
      lia.
  Qed.
  (** the result of a rule is added *)
  Lemma spent_rule s n t f L s0 m s' m' :
    good_entry (n, None) (off s) t -> (forall x e, In (x, e) nodes -> snd x <> None) ->
    spent f L s0 m s' m' -> spent f L s0 m s' (set_memo (s_pt s) (n, None) t m').
  Proof.
    intros Ht Hn (G & F & C).
    assert (E : forall y f', snd y <> None -> assoc y (set_memo (s_pt s) (n, None) t m' f') = assoc y (m' f')).
    { intros y f' Hy. rewrite assoc_set. destruct (node_eqb_spec y (n, None)) as [->|_]; [now destruct Hy|]. now rewrite andb_false_r. }
    split; [|split].
    - intros y f' t'. rewrite assoc_set. destruct (Nat.eqb_spec f' (off s)) as [->|_]; cbn [andb]; [|apply G].
      destruct (node_eqb_spec y (n, None)) as [->|_]; [|apply G]. intros [= <-]. exact Ht.
    - intros y e' f' Hy W. rewrite E by (eapply Hn; eauto). now apply (F y e').
    - replace (open (set_memo (s_pt s) (n, None) t m') f L) with (open m' f L); [exact C|].
      unfold open, count. f_equal. apply filter_ext_in. intros [[y e'] f'] Hk. unfold unset. cbn [fst snd]. rewrite E; [reflexivity|].
      unfold keys in Hk. apply in_prod_iff in Hk as [Hk _]. eapply Hn; eauto.
  Qed.

  Hypothesis Hsome : forall x e, In (x, e) nodes -> snd x <> None.

  (** ** One evaluation *)
  Definition post (nl : bool) (f L : nat) (p : point) (s : st) (m : memo) (r : mout) : Prop :=
    match r with
    | MOk _ _ s' m' => Reach data (s_pt s') /\ off s <= off s' /\ (nl = false -> off s < off s') /\ spent f L s m s' m'
    | MFail _ s' m' => s_pt s' = p /\ spent f L s m s' m'
    | MPanic _ _ _ _ => True
    | MFuel => False
    end.

  Section Run.
  Variable o : settings.
  Definition fine (n : nat) : Prop :=
    forall rule path e en s m, lits_ok e = true -> wf e = true -> incl (nodes_of rule path e) nodes ->
      Reach data (s_pt s) -> good m -> len s * K + ld e <= n ->
      post (nul nt e) (off s) (ld e) (s_pt s) s m (meval o g n rule path e en s m).

  Lemma off_len s s' : Reach data (s_pt s) -> Reach data (s_pt s') -> off s + len s = off s' + len s'.
  Proof. intros H1 H2. now rewrite (reach_len _ _ H1), (reach_len _ _ H2). Qed.

  Lemma seq_fine n rule path pt w f L : fine n -> Reach data pt -> f = p_off (pt_pos pt) -> forall es i acc en s m,
    forallb lits_ok es = true -> forallb (fun x => (ld x <=? K) && wf x) es = true ->
    incl (nodes_list rule path i es) nodes -> Reach data (s_pt s) -> good m ->
    (len s * K + lds es <= n \/ S (len s) * K <= n) -> ((off s = f /\ lds es <= L) \/ f < off s) ->
    post (forallb (nul nt) es) f L pt s m (mseq_loop (fun i => meval o g n rule (i :: path)) pt w i es acc en s m).
  Proof.
    intros Hn Hpt Hf. induction es as [|e es IH]; intros i acc en s m Hl Hw Hi Hs Hm Hlen Hreg; cbn [mseq_loop].
    { cbn. split; [exact Hs|]. split; [lia|]. split; [discriminate|]. now apply spent_refl. }
    cbn [forallb] in Hl, Hw. apply andb_true_iff in Hl as [Hl1 Hl2].
    apply andb_true_iff in Hw as [Hw1 Hw2]. apply andb_true_iff in Hw1 as [Hk Hw1]. apply Nat.leb_le in Hk.
    cbn [nodes_list] in Hi. apply incl_app_inv in Hi as [Hi1 Hi2].
    assert (P : post (nul nt e) (off s) (ld e) (s_pt s) s m (meval o g n rule (i :: path) e en s m)).
    { apply Hn; auto. destruct Hlen as [H|H]; [cbn [Termination.lds] in H; lia|cbn in H; lia]. }
    assert (Hin : inside (off s) (ld e) f L).
    { destruct Hreg as [[A B]|A]; [right; cbn [Termination.lds] in B; lia|left; exact A]. }
    destruct (meval o g n rule (i :: path) e en s m) as [v en' s' m'|en' s' m'|x rl s' m'|]; cbn [post] in P.
    - destruct P as (R & O1 & O2 & S1). pose proof (off_len _ _ Hs R) as Hol.
      apply (spent_inside _ _ _ _ _ _ _ _ Hin) in S1.
      assert (IH' : post (forallb (nul nt) es) f L pt s' m' (mseq_loop (fun i => meval o g n rule (i :: path)) pt w (S i) es (v :: acc) en' s' m')).
      { apply IH; auto; [apply S1| |].
        - destruct Hlen as [H|H]; [|right; nia]. destruct (Nat.eq_dec (len s') (len s)) as [Eq|Ne].
          + left. cbn [Termination.lds] in H. destruct (nul nt e); [rewrite Eq; lia|]. specialize (O2 eq_refl). lia.
          + right. cbn. nia.
        - destruct Hreg as [[A B]|A]; [|right; lia]. cbn [Termination.lds] in B.
          destruct (nul nt e); [|specialize (O2 eq_refl); right; lia].
          destruct (Nat.eq_dec (off s') f) as [->|]; [left; lia|right; lia]. }
      destruct (mseq_loop _ pt w (S i) es (v :: acc) en' s' m') as [v2 en2 s2 m2|en2 s2 m2|x2 rl2 s2 m2|]; cbn [post] in *; auto.
      + destruct IH' as (R2 & O3 & O4 & S2). split; [exact R2|]. split; [lia|]. split; [|eapply spent_trans; eauto].
        cbn [forallb]. intros E. apply andb_false_iff in E as [E|E]; [specialize (O2 E)|specialize (O4 E)]; lia.
      + destruct IH' as (E & S2). split; [exact E|]. eapply spent_trans; eauto.
    - destruct P as (E & S1). apply (spent_inside _ _ _ _ _ _ _ _ Hin) in S1. cbn. split.
      + apply (restore_pt data); [exact Hpt|]. cbn. now rewrite E.
      + eapply spent_cnt; [| |exact S1]; [reflexivity|]. now rewrite restore_cnt.
    - exact I.
    - exact P.
  Qed.

  Lemma choice_fine n rule path f L : fine n -> forall es i en s m,
    forallb lits_ok es = true -> forallb wf es = true ->
    incl (nodes_list rule path i es) nodes -> Reach data (s_pt s) -> good m ->
    len s * K + fold_right (fun x n => Nat.max (ld x) n) 0 es <= n ->
    off s = f -> fold_right (fun x n => Nat.max (ld x) n) 0 es <= L ->
    post (existsb (nul nt) es) f L (s_pt s) s m (mchoice_loop (fun i => meval o g n rule (i :: path)) i es en s m).
  Proof.
    intros Hn. induction es as [|e es IH]; intros i en s m Hl Hw Hi Hs Hm Hlen Hf HL; cbn [mchoice_loop].
    { split; [reflexivity|]. now apply spent_refl. }
    cbn [forallb fold_right nodes_list] in *. apply andb_true_iff in Hl as [Hl1 Hl2].
    apply andb_true_iff in Hw as [Hw1 Hw2]. apply incl_app_inv in Hi as [Hi1 Hi2].
    assert (P : post (nul nt e) (off s) (ld e) (s_pt s) s m (meval o g n rule (i :: path) e [] s m)) by (apply Hn; auto; lia).
    assert (Hin : inside (off s) (ld e) f L) by (right; lia).
    destruct (meval o g n rule (i :: path) e [] s m) as [v en' s' m'|en' s' m'|x rl s' m'|]; cbn [post] in P.
    - destruct P as (R & O1 & O2 & S1). cbn [post]. split; [exact R|]. split; [exact O1|].
      split; [|eapply spent_inside; eauto]. cbn [existsb]. intros E. apply orb_false_iff in E as [E _]. auto.
    - destruct P as (E & S1). apply (spent_inside _ _ _ _ _ _ _ _ Hin) in S1.
      assert (IH' : post (existsb (nul nt) es) f L (s_pt (set_warns (s_warns s) s')) (set_warns (s_warns s) s') m'
        (mchoice_loop (fun i => meval o g n rule (i :: path)) (S i) es en (set_warns (s_warns s) s') m')).
      { apply IH; cbn [s_pt set_warns]; rewrite ?E; auto; [apply S1|lia|lia]. }
      destruct (mchoice_loop _ (S i) es en _ m') as [v2 en2 s2 m2|en2 s2 m2|x2 rl2 s2 m2|]; cbn [post s_pt set_warns] in *; auto.
      + rewrite E in IH'. destruct IH' as (R2 & O3 & O4 & S2). split; [exact R2|]. split; [exact O3|]. split.
        * cbn [existsb]. intros Q. apply orb_false_iff in Q as [_ Q]. auto.
        * eapply spent_trans; [exact S1|]. eapply spent_cnt; [| |exact S2]; reflexivity.
      + destruct IH' as (E2 & S2). split; [congruence|]. eapply spent_trans; [exact S1|]. eapply spent_cnt; [| |exact S2]; reflexivity.
    - exact I.
    - exact P.
  Qed.

  Lemma star_fine n rule path e f L : fine n -> lits_ok e = true -> wf e = true -> nul nt e = false ->
    incl (nodes_of rule path e) nodes -> forall k acc en s m, Reach data (s_pt s) -> good m -> len s < k ->
    len s * K + ld e <= n -> ((off s = f /\ ld e <= L) \/ f < off s) ->
    match mstar_loop (meval o g n rule path e []) k acc en s m with
    | MOk v _ s' m' => Reach data (s_pt s') /\ off s <= off s' /\ spent f L s m s' m' /\
        exists l, v = VList (rev acc ++ l) /\ (l = [] -> s_pt s' = s_pt s) /\ (l <> [] -> off s < off s')
    | MFail _ _ _ => False
    | MPanic _ _ _ _ => True
    | MFuel => False
    end.
  Proof.
    intros Hn Hl Hw He Hi. induction k as [|k IH]; intros acc en s m Hs Hm Hk Hlen Hreg; [lia|]. cbn [mstar_loop].
    assert (P : post (nul nt e) (off s) (ld e) (s_pt s) s m (meval o g n rule path e [] s m)) by (apply Hn; auto).
    assert (Hin : inside (off s) (ld e) f L) by (destruct Hreg as [[A B]|A]; [right; lia|left; exact A]).
    destruct (meval o g n rule path e [] s m) as [v en' s' m'|en' s' m'|x rl s' m'|]; cbn [post] in P; auto.
    - destruct P as (R & O1 & O2 & S1). specialize (O2 He). pose proof (off_len _ _ Hs R) as Hol.
      apply (spent_inside _ _ _ _ _ _ _ _ Hin) in S1.
      assert (IH' := IH (v :: acc) en s' m' R (proj1 S1)).
      destruct (mstar_loop _ k (v :: acc) en s' m') as [v2 en2 s2 m2|en2 s2 m2|x2 rl2 s2 m2|].
      + destruct IH' as (R2 & O3 & S2 & l & -> & _); [lia|nia|destruct Hreg as [[A B]|A]; right; lia|].
        split; [exact R2|]. split; [lia|]. split; [eapply spent_trans; eauto|]. exists (v :: l).
        split; [cbn [rev]; now rewrite <- app_assoc|]. split; [discriminate|]. intros _. lia.
      + apply IH'; [lia|nia|destruct Hreg as [[A B]|A]; right; lia].
      + exact I.
      + apply IH'; [lia|nia|destruct Hreg as [[A B]|A]; right; lia].
    - destruct P as (E & S1). rewrite E. split; [exact Hs|]. split; [lia|]. split; [eapply spent_inside; eauto|].
      exists []. split; [now rewrite app_nil_r|]. split; [reflexivity|congruence].
  Qed.

  Lemma hit_fine s m nl t x f L e : Reach data (s_pt s) -> good m -> assoc x (m (off s)) = Some t ->
    In (x, e) nodes -> nl = nul nt e ->
    forall en, post nl f L (s_pt s) s m (if t_ok t then MOk (t_val t) en (restore (t_end t) s) m else MFail en (restore (t_end t) s) m).
  Proof.
    intros Hs Hm Ht Hx -> en. destruct (Hm _ _ _ Ht) as (R & O1 & O2 & O3 & _).
    assert (E : s_pt (restore (t_end t) s) = t_end t) by now apply (restore_pt data).
    destruct (t_ok t); cbn [post]; rewrite E.
    - split; [exact R|]. split; [exact O1|]. split; [intros; eapply O3; eauto|].
      apply spent_refl; auto. apply restore_cnt.
    - split; [|apply spent_refl; auto; apply restore_cnt]. apply (reach_eq data); auto.
  Qed.

  Lemma rule_fine n name e : fine n -> find_rule name g = Some e -> forall f L en s m,
    Reach data (s_pt s) -> good m -> len s * K + rk name <= n -> off s = f -> rk name <= L ->
    post (nt name) f L (s_pt s) s m (mrule (fun name e' s m => meval o g n name [] e' [] s m) name e en s m).
  Proof.
    intros Hn F f L en s m Hs Hm Hlen Hf HL. unfold mrule, get_memo.
    destruct (assoc (name, None) (m (off s))) as [t|] eqn:A.
    - destruct (Hm _ _ _ A) as (R & O1 & O2 & _ & O3).
      assert (E : s_pt (restore (t_end t) s) = t_end t) by now apply (restore_pt data).
      destruct (t_ok t); cbn [post]; rewrite E.
      + split; [exact R|]. split; [exact O1|]. split; [intros; eapply O3; eauto|].
        apply spent_refl; auto. apply restore_cnt.
      + split; [|apply spent_refl; auto; apply restore_cnt]. apply (reach_eq data); auto.
    - destruct (Hrk _ _ F) as [R1 R2].
      assert (He : lits_ok e = true).
      { pose proof (find_rule_in _ _ _ F) as F'. unfold grammar_lits_ok in Hg. rewrite forallb_forall in Hg. exact (Hg _ F'). }
      assert (P : post (nul nt e) (off s) (ld e) (s_pt s) s m (meval o g n name [] e [] s m)).
      { apply Hn; auto. lia. }
      assert (Hin : inside (off s) (ld e) f L) by (right; lia).
      destruct (meval o g n name [] e [] s m) as [v en' s' m'|en' s' m'|x rl s' m'|]; cbn [post] in *; auto.
      + destruct P as (R & O1 & O2 & S1). split; [exact R|]. split; [exact O1|]. split; [intros; apply O2; eapply Hnt; eauto|].
        apply spent_rule; [|exact Hsome|eapply spent_inside; eauto].
        split; [exact R|]. split; [exact O1|]. split; [discriminate|]. split.
        * intros _ e' Hx. now apply Hsome in Hx.
        * intros _ n' [= <-] Q. apply O2. eapply Hnt; eauto.
      + destruct P as (E & S1). split; [exact E|].
        apply spent_rule; [|exact Hsome|eapply spent_inside; eauto].
        unfold good_entry. cbn [t_end t_ok]. rewrite E. split; [exact Hs|]. split; [lia|]. split; [reflexivity|]. split; discriminate.
  Qed.

  (** the result of the parts, before the entry for the node itself is made *)
  Lemma close_fine nl s m x e L r : Reach data (s_pt s) -> In (x, e) nodes -> assoc x (m (off s)) = None -> L < ld e ->
    nl = nul nt e -> post nl (off s) L (s_pt s) (tick s) m r ->
    post nl (off s) (ld e) (s_pt s) s m
      (match r with
       | MOk v en' s' m' => MOk v en' s' (set_memo (s_pt s) x (Tuple v true (s_pt s')) m')
       | MFail en' s' m' => MFail en' s' (set_memo (s_pt s) x (Tuple VNil false (s_pt s')) m')
       | x => x
       end).
  Proof.
    intros Hs Hx Hm HL Hnl P. destruct r as [v en' s' m'|en' s' m'|y rl s' m'|]; cbn [post] in *; auto.
    - destruct P as (R & O1 & O2 & S1). cbn [s_pt tick set_cnt] in O1, O2. split; [exact R|]. split; [exact O1|]. split; [exact O2|].
      eapply spent_set; eauto. split; [exact R|]. split; [exact O1|]. split; [discriminate|]. split.
      + intros _ e' Hx' Q. apply O2. rewrite Hnl. now rewrite (proj2 (Hfun _ _ _ Hx Hx')).
      + intros _ n' E. apply Hsome in Hx. rewrite E in Hx. now destruct Hx.
    - destruct P as (E & S1). split; [exact E|]. eapply spent_set; eauto.
      unfold good_entry. cbn [t_end t_ok]. rewrite E. split; [exact Hs|]. split; [lia|]. split; [reflexivity|]. split; discriminate.
  Qed.

  Lemma post_mono nl nl' f L f' L' p s m r : (nl' = false -> nl = false) -> inside f L f' L' ->
    post nl f L p s m r -> post nl' f' L' p s m r.
  Proof.
    intros H1 H2. destruct r as [v en' s' m'|en' s' m'|y rl s' m'|]; cbn [post]; auto.
    - intros (R & O1 & O2 & S1). split; [exact R|]. split; [exact O1|]. split; [auto|]. eapply spent_inside; eauto.
    - intros (E & S1). split; [exact E|]. eapply spent_inside; eauto.
  Qed.

  Theorem meval_fine n : fine n.
  Proof.
    induction n as [|n IH]; intros rule path e en s m Hl Hw Hi Hs Hm Hlen.
    { pose proof (ld_pos nt rk K HK e). lia. }
    cbn [meval]. unfold mstep, get_memo. pose proof (Hi _ (nodes_self rule path e)) as Hx.
    destruct (assoc (rule, Some path) (m (off s))) as [t|] eqn:A; [eapply hit_fine; eauto|].
    apply close_fine with (L := ld e - 1); auto; [pose proof (ld_pos nt rk K HK e); lia|].
    destruct (over_limit o (tick s)) eqn:Lm; [exact I|].
    assert (Prim : forall r, prim_out o g rule e en (tick s) = Some r ->
      post (nul nt e) (off s) (ld e - 1) (s_pt s) (tick s) m (lift m r)).
    { intros r P. pose proof (track_prim o g data rule e en (tick s) r Hl Hs P) as T.
      pose proof (progress_prim o g nt rule e en (tick s) r Hl P) as Q.
      pose proof (prim_cnt _ _ _ _ _ _ _ P) as C.
      destruct r as [v en' s'|en' s'|x rl s'|]; cbn [lift post tracked progress out_cnt] in *; auto.
      - split; [eapply steps_reach; eauto|]. split; [apply (steps_off _ _ T)|]. split; [exact Q|]. now apply spent_refl.
      - split; [apply T|]. now apply spent_refl.
      - now apply (prim_not_fuel o g rule e en (tick s)) in P. }
    assert (Hn : forall path' e' en' s', lits_ok e' = true -> wf e' = true -> incl (nodes_of rule path' e') nodes ->
       s_pt s' = s_pt s -> s_cnt s' = s_cnt (tick s) -> ld e' < ld e ->
       post (nul nt e') (off s) (ld e - 1) (s_pt s) (tick s) m (meval o g n rule path' e' en' s' m)).
    { intros path' e' en' s' H1 H2 H3 H4 H5 H6.
      assert (P : post (nul nt e') (off s') (ld e') (s_pt s') s' m (meval o g n rule path' e' en' s' m)).
      { apply IH; rewrite ?H4; auto. lia. }
      rewrite H4 in P. apply (post_mono _ (nul nt e') _ _ (off s) (ld e - 1)) in P; [|auto|right; lia].
      destruct (meval o g n rule path' e' en' s' m) as [v2 en2 s2 m2|en2 s2 m2|x2 rl2 s2 m2|]; cbn [post] in *; auto.
      - rewrite H4 in P. destruct P as (R & O1 & O2 & S1). split; [exact R|]. split; [exact O1|]. split; [exact O2|]. eapply spent_cnt; [symmetry; exact H5|reflexivity|exact S1].
      - destruct P as (E & S1). split; auto. eapply spent_cnt; [symmetry; exact H5|reflexivity|exact S1]. }
    destruct e; cbn [lits_ok Termination.wf] in Hl, Hw; rewrite ?nodes_choice, ?nodes_seq in Hi; cbn [nodes_of] in Hi; apply incl_cons_inv in Hi as [_ Hi];
      try (match goal with |- context [step o g ?f ?k rule ?e en s] => rewrite (step_prim o g f k rule e en s _ Lm eq_refl) end; apply Prim; reflexivity).
    - specialize (Hn (0 :: path) e en (tick s) Hl Hw Hi eq_refl eq_refl). cbn [Termination.ld] in *. specialize (Hn (le_n _)).
      cbn [nul]. destruct (meval o g n rule (0 :: path) e en (tick s) m) as [v2 en2 s2 m2|en2 s2 m2|x2 rl2 s2 m2|]; auto.
      destruct (run_action _ _ _ _ _ _); cbn [post] in *; auto.
    - rewrite ld_seq in * || idtac. cbn [Termination.ld nul] in *. apply (choice_fine n rule path (off s) _ IH l 0 en (tick s) m); auto; cbn [s_pt tick set_cnt]; lia.
    - clear Hn Prim. rewrite ld_seq in *. cbn [nul]. apply (seq_fine n rule path (s_pt s) _ (off s) _ IH Hs eq_refl l 0 [] en (tick s) m); auto; cbn [s_pt tick set_cnt]; [left; lia|left; lia].
    - specialize (Hn (0 :: path) e [] (tick s) Hl Hw Hi eq_refl eq_refl). cbn [Termination.ld] in *. specialize (Hn (le_n _)).
      cbn [nul]. destruct (meval o g n rule (0 :: path) e [] (tick s) m) as [v2 en2 s2 m2|en2 s2 m2|x2 rl2 s2 m2|]; auto.
    - specialize (Hn (0 :: path) e [] (set_mfinv (negb (s_mfinv (tick s))) (tick s)) Hl Hw Hi eq_refl eq_refl). cbn [Termination.ld] in *. specialize (Hn (le_n _)).
      cbn [nul]. destruct (meval o g n rule (0 :: path) e [] _ m) as [v2 en2 s2 m2|en2 s2 m2|x2 rl2 s2 m2|]; cbn [post] in *; auto.
      + destruct Hn as (R & O1 & _ & S1). split; [apply (restore_pt data); auto|]. eapply spent_cnt; [reflexivity| |exact S1]. now rewrite restore_cnt.
      + destruct Hn as (E & S1). assert (E' : forall s', s_pt s' = s_pt s -> s_pt (restore (s_pt s) s') = s_pt s).
        { intros s' Q. apply (restore_pt data); auto. now rewrite Q. }
        rewrite E' by exact E. split; [exact Hs|]. split; [reflexivity|]. split; [discriminate|].
        eapply spent_cnt; [reflexivity| |exact S1]. now rewrite restore_cnt.
    - apply andb_true_iff in Hw as [Hw1 Hw2]. apply negb_true_iff in Hw1. cbn [Termination.ld nul] in *. clear Hn.
      pose proof (ld_pos nt rk K HK e).
      assert (Q := star_fine n rule (0 :: path) e (off s) (S (ld e) - 1) IH Hl Hw2 Hw1 Hi n [] en (tick s) m Hs Hm).
      cbn [s_pt tick set_cnt] in Q. specialize (Q ltac:(nia) ltac:(lia) ltac:(left; lia)).
      destruct (mstar_loop _ n [] en (tick s) m) as [v2 en2 s2 m2|en2 s2 m2|x2 rl2 s2 m2|]; auto; [|destruct Q].
      destruct Q as (R & O1 & S1 & l & -> & K1 & K2). cbn [rev app]. destruct l as [|v l].
      + cbn [post]. split; auto.
      + cbn [post]. split; [exact R|]. split; [exact O1|]. split; [intros _; apply K2; discriminate|exact S1].
    - apply andb_true_iff in Hw as [Hw1 Hw2]. apply negb_true_iff in Hw1. cbn [Termination.ld nul] in *. clear Hn.
      pose proof (ld_pos nt rk K HK e).
      assert (Q := star_fine n rule (0 :: path) e (off s) (S (ld e) - 1) IH Hl Hw2 Hw1 Hi n [] en (tick s) m Hs Hm).
      cbn [s_pt tick set_cnt] in Q. specialize (Q ltac:(nia) ltac:(lia) ltac:(left; lia)).
      destruct (mstar_loop _ n [] en (tick s) m) as [v2 en2 s2 m2|en2 s2 m2|x2 rl2 s2 m2|]; auto; [|destruct Q].
      destruct Q as (R & O1 & S1 & _). cbn [post]. split; [exact R|]. split; [exact O1|]. split; [discriminate|exact S1].
    - specialize (Hn (0 :: path) e [] (tick s) Hl Hw Hi eq_refl eq_refl). cbn [Termination.ld] in *. specialize (Hn (le_n _)).
      cbn [nul]. destruct (meval o g n rule (0 :: path) e [] (tick s) m) as [v2 en2 s2 m2|en2 s2 m2|x2 rl2 s2 m2|]; cbn [post] in *; auto.
      + destruct Hn as (R & O1 & _ & S1). split; [exact R|]. split; [exact O1|]. split; [discriminate|exact S1].
      + destruct Hn as (E & S1). rewrite E. split; [exact Hs|]. split; [reflexivity|]. split; [discriminate|exact S1].
    - destruct (find_rule name g) as [e|] eqn:F.
      + cbn [Termination.ld nul] in *. apply (rule_fine n name e IH F (off s) _ en (tick s) m); auto; cbn [s_pt tick set_cnt]; lia.
      + apply (Prim (OFail en (add_err_at (Some rule) (MText (b "undefined rule: " ++ b name)) (pt_pos (s_pt (tick s))) (tick s)))).
        cbn [prim_out]. now rewrite F.
  Qed.
  End Run.

  (** ** The limit on the number of expressions *)
  Section Limit.
  Variables o o' : settings.
  Hypothesis Ho : o_ignore o = o_ignore o' /\ o_warn o = o_warn o' /\ o_invalid o = o_invalid o'.
  Hypothesis Hno : o_max o' = None.
  Definition room (s : st) (m : memo) (f L : nat) : Prop :=
    match o_max o with Some k => N.to_nat (s_cnt s) + open m f L <= N.to_nat k | None => True end.
  Lemma room_inside s m f1 L1 f L : inside f1 L1 f L -> room s m f L -> room s m f1 L1.
  Proof. intros H. unfold room. destruct (o_max o); auto. pose proof (open_inside m _ _ _ _ H). lia. Qed.
  Lemma room_spent s m s' m' f L : spent f L s m s' m' -> room s m f L -> room s' m' f L.
  Proof. intros (_ & _ & C). unfold room. destruct (o_max o); auto. lia. Qed.
  Lemma room_cnt s s' m f L : s_cnt s' = s_cnt s -> room s m f L -> room s' m f L.
  Proof. intros E. unfold room. now rewrite E. Qed.

  Lemma prim_same rule e en s : prim_out o g rule e en s = prim_out o' g rule e en s.
  Proof.
    assert (Rd : forall rule s, read o rule s = read o' rule s).
    { intros. unfold read, check_rune. destruct Ho as (_ & _ & E). now rewrite E. }
    destruct e; cbn [prim_out]; try reflexivity.
    - destruct c; cbn; [reflexivity|]. destruct Ho as (_ & -> & _). reflexivity.
    - now rewrite Rd.
    - now rewrite Rd.
    - f_equal. generalize (s_pt s) as p. revert s. induction runes as [|c rs IH]; intros s p; cbn [lit_loop]; [reflexivity|].
      rewrite <- Rd, IH. reflexivity.
  Qed.

  Definition same (n : nat) : Prop :=
    forall rule path e en s m, lits_ok e = true -> wf e = true -> incl (nodes_of rule path e) nodes ->
      Reach data (s_pt s) -> good m -> len s * K + ld e <= n -> room s m (off s) (ld e) ->
      meval o g n rule path e en s m = meval o' g n rule path e en s m.

  Lemma seq_same n rule path pt w f L : same n -> forall es i acc en s m,
    forallb lits_ok es = true -> forallb (fun x => (ld x <=? K) && wf x) es = true ->
    incl (nodes_list rule path i es) nodes -> Reach data (s_pt s) -> good m ->
    (len s * K + lds es <= n \/ S (len s) * K <= n) -> ((off s = f /\ lds es <= L) \/ f < off s) -> room s m f L ->
    mseq_loop (fun i => meval o g n rule (i :: path)) pt w i es acc en s m =
    mseq_loop (fun i => meval o' g n rule (i :: path)) pt w i es acc en s m.
  Proof.
    intros Hn. induction es as [|e es IH]; intros i acc en s m Hl Hw Hi Hs Hm Hlen Hreg Hr; cbn [mseq_loop]; [reflexivity|].
    cbn [forallb] in Hl, Hw. apply andb_true_iff in Hl as [Hl1 Hl2].
    apply andb_true_iff in Hw as [Hw1 Hw2]. apply andb_true_iff in Hw1 as [Hk Hw1]. apply Nat.leb_le in Hk.
    cbn [nodes_list] in Hi. apply incl_app_inv in Hi as [Hi1 Hi2].
    assert (Hf : len s * K + ld e <= n) by (destruct Hlen as [H|H]; [cbn [Termination.lds] in H; lia|cbn in H; lia]).
    assert (Hin : inside (off s) (ld e) f L).
    { destruct Hreg as [[A B]|A]; [right; cbn [Termination.lds] in B; lia|left; exact A]. }
    rewrite Hn; auto; [|eapply room_inside; eauto].
    pose proof (meval_fine o' n rule (i :: path) e en s m Hl1 Hw1 Hi1 Hs Hm Hf) as P.
    destruct (meval o' g n rule (i :: path) e en s m) as [v en' s' m'|en' s' m'|x rl s' m'|]; cbn [post] in P; auto.
    destruct P as (R & O1 & O2 & S1). pose proof (off_len _ _ Hs R) as Hol.
    apply (spent_inside _ _ _ _ _ _ _ _ Hin) in S1.
    apply IH; auto; [apply S1| | |eapply room_spent; eauto].
    - destruct Hlen as [H|H]; [|right; nia]. destruct (Nat.eq_dec (len s') (len s)) as [Eq|Ne].
      + left. cbn [Termination.lds] in H. destruct (nul nt e); [rewrite Eq; lia|]. specialize (O2 eq_refl). lia.
      + right. cbn. nia.
    - destruct Hreg as [[A B]|A]; [|right; lia]. cbn [Termination.lds] in B.
      destruct (nul nt e); [|specialize (O2 eq_refl); right; lia].
      destruct (Nat.eq_dec (off s') f) as [->|]; [left; lia|right; lia].
  Qed.

  Lemma choice_same n rule path f L : same n -> forall es i en s m,
    forallb lits_ok es = true -> forallb wf es = true ->
    incl (nodes_list rule path i es) nodes -> Reach data (s_pt s) -> good m ->
    len s * K + fold_right (fun x n => Nat.max (ld x) n) 0 es <= n ->
    off s = f -> fold_right (fun x n => Nat.max (ld x) n) 0 es <= L -> room s m f L ->
    mchoice_loop (fun i => meval o g n rule (i :: path)) i es en s m =
    mchoice_loop (fun i => meval o' g n rule (i :: path)) i es en s m.
  Proof.
    intros Hn. induction es as [|e es IH]; intros i en s m Hl Hw Hi Hs Hm Hlen Hf HL Hr; cbn [mchoice_loop]; [reflexivity|].
    cbn [forallb fold_right nodes_list] in *. apply andb_true_iff in Hl as [Hl1 Hl2].
    apply andb_true_iff in Hw as [Hw1 Hw2]. apply incl_app_inv in Hi as [Hi1 Hi2].
    assert (Hfu : len s * K + ld e <= n) by lia.
    assert (Hin : inside (off s) (ld e) f L) by (right; lia).
    rewrite Hn; auto; [|eapply room_inside; eauto].
    pose proof (meval_fine o' n rule (i :: path) e [] s m Hl1 Hw1 Hi1 Hs Hm Hfu) as P.
    destruct (meval o' g n rule (i :: path) e [] s m) as [v en' s' m'|en' s' m'|x rl s' m'|]; cbn [post] in P; auto.
    destruct P as (E & S1). apply (spent_inside _ _ _ _ _ _ _ _ Hin) in S1.
    apply IH; cbn [s_pt set_warns]; rewrite ?E; auto; [apply S1|lia|lia|]. 
    eapply room_cnt; [|eapply room_spent; eauto]. reflexivity.
  Qed.

  Lemma star_same n rule path e f L : same n -> lits_ok e = true -> wf e = true -> nul nt e = false ->
    incl (nodes_of rule path e) nodes -> forall k acc en s m, Reach data (s_pt s) -> good m ->
    len s * K + ld e <= n -> ((off s = f /\ ld e <= L) \/ f < off s) -> room s m f L ->
    mstar_loop (meval o g n rule path e []) k acc en s m = mstar_loop (meval o' g n rule path e []) k acc en s m.
  Proof.
    intros Hn Hl Hw He Hi. induction k as [|k IH]; intros acc en s m Hs Hm Hlen Hreg Hr; [reflexivity|]. cbn [mstar_loop].
    assert (Hin : inside (off s) (ld e) f L) by (destruct Hreg as [[A B]|A]; [right; lia|left; exact A]).
    rewrite Hn; auto; [|eapply room_inside; eauto].
    pose proof (meval_fine o' n rule path e [] s m Hl Hw Hi Hs Hm Hlen) as P.
    destruct (meval o' g n rule path e [] s m) as [v en' s' m'|en' s' m'|x rl s' m'|]; cbn [post] in P; auto.
    destruct P as (R & O1 & O2 & S1). specialize (O2 He). pose proof (off_len _ _ Hs R) as Hol.
    apply (spent_inside _ _ _ _ _ _ _ _ Hin) in S1.
    apply IH; auto; [apply S1|nia|destruct Hreg as [[A B]|A]; right; lia|eapply room_spent; eauto].
  Qed.

  Lemma rule_same n name e : same n -> find_rule name g = Some e -> forall en s m,
    Reach data (s_pt s) -> good m -> len s * K + rk name <= n -> room s m (off s) (rk name) ->
    mrule (fun name e' s m => meval o g n name [] e' [] s m) name e en s m =
    mrule (fun name e' s m => meval o' g n name [] e' [] s m) name e en s m.
  Proof.
    intros Hn F en s m Hs Hm Hlen Hr. unfold mrule. destruct (get_memo m s (name, None)); [reflexivity|].
    destruct (Hrk _ _ F) as [R1 R2].
    assert (He : lits_ok e = true).
    { pose proof (find_rule_in _ _ _ F) as F'. unfold grammar_lits_ok in Hg. rewrite forallb_forall in Hg. exact (Hg _ F'). }
    rewrite Hn; auto; [lia|]. eapply room_inside; [|exact Hr]. right. lia.
  Qed.

  Theorem meval_same n : same n.
  Proof.
    induction n as [|n IH]; intros rule path e en s m Hl Hw Hi Hs Hm Hlen Hr; [reflexivity|].
    cbn [meval]. unfold mstep, get_memo. pose proof (Hi _ (nodes_self rule path e)) as Hx.
    destruct (assoc (rule, Some path) (m (off s))) as [t|] eqn:A; [reflexivity|].
    assert (Hr1 : room (tick s) m (off s) (ld e - 1)).
    { pose proof (ld_pos nt rk K HK e). pose proof (open_miss m s _ e (ld e - 1) Hs Hx A). revert Hr. unfold room. destruct (o_max o); auto.
      cbn [s_cnt tick set_cnt]. lia. }
    assert (Lm : over_limit o (tick s) = false).
    { revert Hr1. unfold room, over_limit. destruct (o_max o); auto. intros H. apply N.ltb_ge. lia. }
    assert (Lm' : over_limit o' (tick s) = false) by (unfold over_limit; now rewrite Hno).
    rewrite Lm, Lm'.
    assert (Hn : forall path' e' en' s', lits_ok e' = true -> wf e' = true -> incl (nodes_of rule path' e') nodes ->
       s_pt s' = s_pt s -> s_cnt s' = s_cnt (tick s) -> ld e' < ld e ->
       meval o g n rule path' e' en' s' m = meval o' g n rule path' e' en' s' m).
    { intros path' e' en' s' H1 H2 H3 H4 H5 H6. apply IH; rewrite ?H4; auto; [lia|].
      eapply room_cnt; [exact H5|]. eapply room_inside; [|exact Hr1]. right. lia. }
    assert (Hstep : prim_out o g rule e en (tick s) <> None -> forall f k, step o g f k rule e en s = step o' g f k rule e en s).
    { intros Q f k. destruct (prim_out o g rule e en (tick s)) as [r|] eqn:P; [|congruence].
      rewrite (step_prim o g f k _ _ _ _ _ Lm P). rewrite prim_same in P. now rewrite (step_prim o' g f k _ _ _ _ _ Lm' P). }
    destruct e; cbn [lits_ok Termination.wf] in Hl, Hw; rewrite ?nodes_choice, ?nodes_seq in Hi; cbn [nodes_of] in Hi; apply incl_cons_inv in Hi as [_ Hi];
      try (rewrite Hstep by discriminate; reflexivity).
    - rewrite (Hn (0 :: path) e en (tick s) Hl Hw Hi eq_refl eq_refl) by (cbn [Termination.ld]; lia).
      destruct Ho as (-> & _). reflexivity.
    - rewrite (choice_same n rule path (off s) (ld (EChoice l) - 1) IH l 0 en (tick s) m Hl Hw Hi Hs Hm); auto;
        cbn [Termination.ld] in *; cbn [s_pt tick set_cnt]; lia.
    - rewrite (seq_same n rule path (s_pt (tick s)) (s_warns (tick s)) (off s) (ld (ESeq l) - 1) IH l 0 [] en (tick s) m Hl Hw Hi Hs Hm); auto;
        rewrite ld_seq in *; cbn [s_pt tick set_cnt]; left; lia.
    - rewrite (Hn (0 :: path) e [] (tick s) Hl Hw Hi eq_refl eq_refl) by (cbn [Termination.ld]; lia). reflexivity.
    - rewrite (Hn (0 :: path) e [] (set_mfinv (negb (s_mfinv (tick s))) (tick s)) Hl Hw Hi eq_refl eq_refl) by (cbn [Termination.ld]; lia). reflexivity.
    - apply andb_true_iff in Hw as [Hw1 Hw2]. apply negb_true_iff in Hw1.
      rewrite (star_same n rule (0 :: path) e (off s) (ld (EPlus e) - 1) IH Hl Hw2 Hw1 Hi n [] en (tick s) m Hs Hm); auto;
        cbn [Termination.ld] in *; cbn [s_pt tick set_cnt]; [lia|left; lia].
    - apply andb_true_iff in Hw as [Hw1 Hw2]. apply negb_true_iff in Hw1.
      rewrite (star_same n rule (0 :: path) e (off s) (ld (EStar e) - 1) IH Hl Hw2 Hw1 Hi n [] en (tick s) m Hs Hm); auto;
        cbn [Termination.ld] in *; cbn [s_pt tick set_cnt]; [lia|left; lia].
    - rewrite (Hn (0 :: path) e [] (tick s) Hl Hw Hi eq_refl eq_refl) by (cbn [Termination.ld]; lia). reflexivity.
    - destruct (find_rule name g) as [e|] eqn:F; [|reflexivity].
      cbn [Termination.ld] in *. rewrite (rule_same n name e IH F en (tick s) m Hs Hm); [reflexivity| |].
      + cbn [s_pt tick set_cnt]. lia.
      + cbn [s_pt tick set_cnt]. replace (rk name) with (S (rk name) - 1) by lia. exact Hr1.
  Qed.
  End Limit.
End Bound.

(** ** The grammar of the package *)
Lemma find_rule_nodes g n e : find_rule n g = Some e -> incl (nodes_of n [] e) (all_nodes g).
Proof.
  intros F x Hx. unfold all_nodes. apply in_flat_map. exists (n, e). split; [now apply find_rule_in|exact Hx].
Qed.
Lemma nodes_of_some : forall e rule path x e', In (x, e') (nodes_of rule path e) -> snd x <> None.
Proof.
  fix IH 1. intros e rule path x e'.
  destruct e; cbn [nodes_of]; (intros [H|H]; [injection H as <- _; discriminate|]); try (now destruct H); try (now apply IH in H).
  all: revert H; generalize 0; induction l as [|y l IHl]; intros i H; [destruct H|];
    apply in_app_or in H as [H|H]; [now apply IH in H|now apply IHl in H].
Qed.
Definition gen_nodes : list (node * expr) := Eval vm_compute in all_nodes gen_grammar.

(** a node has one rank and one nullability *)
Definition nodes_fun (nt : string -> bool) (rk : string -> nat) (l : list (node * expr)) : bool :=
  let t := map (fun x => (fst x, (ld nt rk (snd x), nul nt (snd x)))) l in
  forallb (fun x => forallb (fun y => implb (node_eqb (fst x) (fst y))
    ((fst (snd x) =? fst (snd y)) && Bool.eqb (snd (snd x)) (snd (snd y)))) t) t.
Lemma nodes_fun_ok nt rk l : nodes_fun nt rk l = true -> forall x e e', In (x, e) l -> In (x, e') l ->
  ld nt rk e = ld nt rk e' /\ nul nt e = nul nt e'.
Proof.
  unfold nodes_fun. cbv zeta. set (t := map _ l). intros H x e e' H1 H2.
  assert (T : forall e, In (x, e) l -> In (x, (ld nt rk e, nul nt e)) t).
  { intros e0 H0. unfold t. apply in_map_iff. exists (x, e0). auto. }
  rewrite forallb_forall in H. specialize (H _ (T _ H1)). rewrite forallb_forall in H. specialize (H _ (T _ H2)).
  cbn [fst snd] in H. destruct (node_eqb_spec x x); [|congruence]. cbn [implb] in H.
  apply andb_true_iff in H as [A B]. apply Nat.eqb_eq in A. apply Bool.eqb_prop in B. auto.
Qed.
Lemma gen_nodes_fun : nodes_fun gen_nul gen_rk gen_nodes = true.
Proof. vm_compute. reflexivity. Qed.

Lemma gen_nodes_eq : gen_nodes = all_nodes gen_grammar.
Proof. vm_compute. reflexivity. Qed.
Lemma gen_nodes_rule n e : find_rule n gen_grammar = Some e -> incl (nodes_of n [] e) gen_nodes.
Proof. rewrite gen_nodes_eq. apply find_rule_nodes. Qed.
Lemma gen_nodes_some x e : In (x, e) gen_nodes -> snd x <> None.
Proof.
  rewrite gen_nodes_eq. unfold all_nodes. intros H. apply in_flat_map in H as ([n e'] & _ & H). eapply nodes_of_some; eauto.
Qed.
Lemma gen_rk_ok' n e : find_rule n gen_grammar = Some e -> ld gen_nul gen_rk e <= gen_rk n /\ wf gen_nul gen_rk fuel_factor e = true.
Proof. intros F. destruct (gen_rk_ok _ _ F) as (A & B & _). auto. Qed.

(** what [parse_memo] makes of the outcome *)
Definition mfinish (k : pcfg) (r : mout) (ff : list failure) : result * list failure :=
  match r with
  | MOk v _ s _ => finish k (OOk v [] s) ff
  | MFail _ s _ => finish k (OFail [] s) ff
  | MPanic m rule s _ => finish k (OPanic m rule s) ff
  | MFuel => (Diverged, ff)
  end.
Definition mrun (o : settings) (data : bytes) (name : string) (e : expr) (ff : list failure) : mout :=
  mrule (fun name e s m => meval o gen_grammar (parse_fuel (List.length data)) name [] e [] s m) name e []
    (init_st o ff data) (fun _ => []).
Lemma parse_memo_run opts ff data :
  parse_memo opts ff data =
  match find_rule (k_entry (config_of opts)) gen_grammar with
  | None => (Returned VNil [PError (Pos 1 0 0) None (MText (b "invalid entrypoint"))], ff)
  | Some e => mfinish (config_of opts) (mrun (settings_of (config_of opts)) data (k_entry (config_of opts)) e ff) ff
  end.
Proof.
  unfold parse_memo, mrun. destruct (find_rule _ _); [|reflexivity]. cbv zeta.
  destruct (mrule _ _ _ _ _ _); reflexivity.
Qed.

Lemma init_cnt0 o ff data : s_cnt (init_st o ff data) = 0%N.
Proof. apply init_cnt. Qed.
Lemma good_empty data : good data gen_nul gen_nodes (fun _ => []).
Proof. intros x f t H. discriminate H. Qed.
Lemma open_all data m f L : open data gen_nul gen_rk gen_nodes m f L <= List.length gen_nodes * S (List.length data).
Proof.
  unfold open. etransitivity; [apply count_all|].
  assert (E : List.length (keys data gen_nodes) = List.length gen_nodes * List.length (seq 0 (S (List.length data)))) by apply prod_length.
  rewrite E, seq_length. reflexivity.
Qed.

Ltac gen_hyps :=
  first [exact gen_lits_ok | exact gen_nul_ok | exact gen_rk_ok' | (unfold fuel_factor; lia) | exact gen_nodes_rule
        | exact (nodes_fun_ok _ _ _ gen_nodes_fun) | exact gen_nodes_some | apply good_empty].
Lemma mrun_fuel o data name e ff : find_rule name gen_grammar = Some e -> mrun o data name e ff <> MFuel.
Proof.
  intros F. unfold mrun. pose proof (init_st_pt o ff data) as Ep. set (s := init_st o ff data) in *.
  assert (Hs : Reach data (s_pt s)) by (rewrite Ep; constructor).
  assert (P : post data gen_nul gen_rk gen_nodes (gen_nul name) (p_off (pt_pos (s_pt s))) (gen_rk name) (s_pt s) s (fun _ => [])
    (mrule (fun name e s m => meval o gen_grammar (parse_fuel (List.length data)) name [] e [] s m) name e [] s (fun _ => []))).
  { eapply (rule_fine gen_grammar data gen_nul gen_rk fuel_factor gen_nodes); try gen_hyps; auto.
    - eapply meval_fine; gen_hyps.
    - destruct (gen_rk_ok _ _ F) as (_ & _ & R). rewrite Ep, start_rest. unfold parse_fuel. rewrite Nat.mul_succ_l. lia. }
  destruct (mrule _ _ _ _ _ _); try discriminate. destruct P.
Qed.

Lemma parse_memo_terminates opts ff data : fst (parse_memo opts ff data) <> Diverged.
Proof.
  rewrite parse_memo_run. destruct (find_rule _ _) as [e|] eqn:F; [|discriminate].
  pose proof (mrun_fuel (settings_of (config_of opts)) data _ e ff F) as H.
  destruct (mrun _ _ _ _ _); cbn; try discriminate; [|congruence]. destruct (k_recover _); discriminate.
Qed.

(** The number of nodes of the grammar *)
Definition grammar_nodes : nat := Eval vm_compute in List.length (all_nodes gen_grammar).

Lemma mrun_limit o o' data name e ff : find_rule name gen_grammar = Some e ->
  o_ignore o = o_ignore o' /\ o_warn o = o_warn o' /\ o_invalid o = o_invalid o' -> o_max o' = None ->
  match o_max o with Some k => grammar_nodes * S (List.length data) <= N.to_nat k | None => True end ->
  mrun o data name e ff = mrun o' data name e ff.
Proof.
  intros F Ho Hno Hk. unfold mrun.
  replace (init_st o' ff data) with (init_st o ff data).
  2: { unfold init_st, check_rune. destruct Ho as (_ & _ & ->). reflexivity. }
  pose proof (init_st_pt o ff data) as Ep. pose proof (init_cnt0 o ff data) as Ec. set (s := init_st o ff data) in *.
  assert (Hs : Reach data (s_pt s)) by (rewrite Ep; constructor).
  eapply (rule_same gen_grammar data gen_nul gen_rk fuel_factor gen_nodes); try gen_hyps; auto.
  - eapply meval_same; try gen_hyps; assumption.
  - destruct (gen_rk_ok _ _ F) as (_ & _ & R). rewrite Ep, start_rest. unfold parse_fuel. rewrite Nat.mul_succ_l. lia.
  - unfold room. destruct (o_max o); auto. rewrite Ec. pose proof (open_all data (fun _ => []) (p_off (pt_pos (s_pt s))) (gen_rk name)) as Q.
    change (List.length gen_nodes) with grammar_nodes in Q. cbn [N.to_nat]. lia.
Qed.

Lemma parse_memo_limit n opts ff data : grammar_nodes * S (List.length data) <= N.to_nat n ->
  parse_memo (with_limit n opts) ff data = parse_memo (with_limit 0 opts) ff data.
Proof.
  intros Hn. rewrite !parse_memo_run, !with_limit_cfg. cbn [k_entry].
  destruct (find_rule _ _) as [e|] eqn:F; [|reflexivity].
  match goal with |- mfinish ?k1 (mrun ?o1 _ _ _ _) _ = mfinish ?k2 (mrun ?o2 _ _ _ _) _ =>
    rewrite (mrun_limit o1 o2 data _ e ff F); [destruct (mrun o2 _ _ _ _); reflexivity| | |] end; auto.
  unfold settings_of. cbn [o_max k_max]. destruct (N.eqb_spec n 0); auto.
Qed.
