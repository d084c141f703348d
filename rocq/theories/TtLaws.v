(** Laws of parsing expressions: what one expression does, another does too. *)
From Coq Require Import List NArith Bool String Arith Lia.
From Verif Require Import Bytes Treetop TtMap.
Import ListNotations.

Section TxInd.
  Variable P : tx -> Prop.
  Hypothesis H1 : forall t, P (TLit t).
  Hypothesis H2 : forall i cs rs, P (TClass i cs rs).
  Hypothesis H3 : P TAny.
  Hypothesis H4 : forall l, Forall P l -> P (TSeq l).
  Hypothesis H5 : forall l, Forall P l -> P (TAlt l).
  Hypothesis H6 : forall e, P e -> P (TStar e).
  Hypothesis H7 : forall e, P e -> P (TPlus e).
  Hypothesis H8 : forall e, P e -> P (TOpt e).
  Hypothesis H9 : forall e, P e -> P (TNot e).
  Hypothesis H10 : forall n, P (TRef n).
  Fixpoint tx_ind' (e : tx) : P e :=
    let go := fix go (l : list tx) : Forall P l := match l with [] => Forall_nil P | x :: l' => Forall_cons x (tx_ind' x) (go l') end in
    match e with
    | TLit t => H1 t | TClass i cs rs => H2 i cs rs | TAny => H3 | TSeq l => H4 l (go l) | TAlt l => H5 l (go l)
    | TStar e => H6 e (tx_ind' e) | TPlus e => H7 e (tx_ind' e) | TOpt e => H8 e (tx_ind' e) | TNot e => H9 e (tx_ind' e) | TRef n => H10 n
    end.
End TxInd.

(** ** Equality, replacement, flattening *)
Fixpoint leqb {A} (f : A -> A -> bool) (l m : list A) : bool :=
  match l, m with [], [] => true | x :: l', y :: m' => f x y && leqb f l' m' | _, _ => false end.
Fixpoint tx_eqb (a c : tx) {struct a} : bool :=
  match a, c with
  | TLit t, TLit u => leqb N.eqb t u
  | TClass i cs rs, TClass j ds qs => Bool.eqb i j && leqb N.eqb cs ds && leqb (fun x y => (fst x =? fst y)%N && (snd x =? snd y)%N) rs qs
  | TAny, TAny => true
  | TSeq l, TSeq m => (fix go l m := match l, m with [], [] => true | x :: l', y :: m' => tx_eqb x y && go l' m' | _, _ => false end) l m
  | TAlt l, TAlt m => (fix go l m := match l, m with [], [] => true | x :: l', y :: m' => tx_eqb x y && go l' m' | _, _ => false end) l m
  | TStar x, TStar y | TPlus x, TPlus y | TOpt x, TOpt y | TNot x, TNot y => tx_eqb x y
  | TRef n, TRef k => String.eqb n k
  | _, _ => false
  end.
Lemma leqb_eq {A} (f : A -> A -> bool) : (forall x y, f x y = true -> x = y) -> forall l m, leqb f l m = true -> l = m.
Proof. intros H. induction l as [|x l IH]; intros [|y m] E; try discriminate; [reflexivity|]. cbn in E. apply andb_true_iff in E as [E1 E2]. f_equal; auto. Qed.
Lemma tx_eqb_eq a : forall c, tx_eqb a c = true -> a = c.
Proof.
  induction a using tx_ind'; intros c E; destruct c; try discriminate E; cbn [tx_eqb] in E.
  - f_equal. revert E. apply leqb_eq. intros x y. apply N.eqb_eq.
  - apply andb_true_iff in E as [E E3]. apply andb_true_iff in E as [E1 E2]. apply eqb_prop in E1. f_equal; [exact E1| |].
    + revert E2. apply leqb_eq. intros x y. apply N.eqb_eq.
    + revert E3. apply leqb_eq. intros [x1 x2] [y1 y2] E. cbn in E. apply andb_true_iff in E as [A B]. apply N.eqb_eq in A, B. congruence.
  - reflexivity.
  - f_equal. revert l0 E. induction H as [|x l Hx H IH]; intros [|y m] E; try discriminate; [reflexivity|]. apply andb_true_iff in E as [E1 E2]. f_equal; auto.
  - f_equal. revert l0 E. induction H as [|x l Hx H IH]; intros [|y m] E; try discriminate; [reflexivity|]. apply andb_true_iff in E as [E1 E2]. f_equal; auto.
  - f_equal; auto.
  - f_equal; auto.
  - f_equal; auto.
  - f_equal; auto.
  - apply String.eqb_eq in E. congruence.
Qed.
(** [a] replaced by [c] *)
Fixpoint repl (a c e : tx) {struct e} : tx :=
  if tx_eqb e a then c else
  match e with
  | TSeq l => TSeq (map (repl a c) l)
  | TAlt l => TAlt (map (repl a c) l)
  | TStar x => TStar (repl a c x)
  | TPlus x => TPlus (repl a c x)
  | TOpt x => TOpt (repl a c x)
  | TNot x => TNot (repl a c x)
  | _ => e
  end.
Definition repls (l : list (tx * tx)) (e : tx) : tx := fold_left (fun e p => repl (fst p) (snd p) e) l e.
(** no sequence directly in a sequence, no choice directly in a choice *)
Definition mkseq (l : list tx) : tx := match l with [x] => x | _ => TSeq l end.
Definition mkalt (l : list tx) : tx := match l with [x] => x | _ => TAlt l end.
Definition flats (e : tx) : list tx := match e with TSeq m => m | _ => [e] end.
Definition flata (e : tx) : list tx := match e with TAlt m => m | _ => [e] end.
Fixpoint simp (e : tx) : tx :=
  match e with
  | TSeq l => mkseq (flat_map (fun x => flats (simp x)) l)
  | TAlt l => mkalt (flat_map (fun x => flata (simp x)) l)
  | TStar x => TStar (simp x)
  | TPlus x => TPlus (simp x)
  | TOpt x => TOpt (simp x)
  | TNot x => TNot (simp x)
  | _ => e
  end.

Section Laws.
  Variable G : list (string * tx).
  Variable good : list N -> Prop.
  Hypothesis good_app : forall t s, good (t ++ s) -> good s.
  Notation tm := (tm G).
  Lemma gnext e s r : good s -> tm e s (Some r) -> good r.
  Proof. intros A B. apply tm_suffix in B as [t ->]. eauto. Qed.

  Ltac gd := match goal with |- good ?r => first [assumption | match goal with K : Treetop.tm G ?e ?s (Some r) |- _ => apply (gnext e s r); [gd|exact K] end] end.

  (** What [e] does where [P] holds, [e'] does. *)
  Definition le (P : list N -> Prop) (e e' : tx) : Prop := forall s o, good s -> P s -> tm e s o -> tm e' s o.
  Definition any (s : list N) : Prop := True.
  Lemma le_refl P e : le P e e. Proof. intros s o _ _ H. exact H. Qed.
  Lemma le_trans P e e' e'' : le P e e' -> le P e' e'' -> le P e e''.
  Proof. intros A B s o Hg Hp H. apply B; auto. Qed.
  Lemma le_weak P e e' : le any e e' -> le P e e'.
  Proof. intros A s o Hg Hp H. apply A; auto. exact I. Qed.
  Lemma le_seq P e e' es es' : le P e e' -> le any (TSeq es) (TSeq es') -> le P (TSeq (e :: es)) (TSeq (e' :: es')).
  Proof.
    intros A B s o Hg Hp H. inversion H; subst.
    - eapply tm_seq; [apply A; eauto|]. apply B; [eapply gnext; eauto|exact I|assumption].
    - apply tm_seq_no. now apply A.
  Qed.
  Lemma le_alt P e e' es es' : le P e e' -> le P (TAlt es) (TAlt es') -> le P (TAlt (e :: es)) (TAlt (e' :: es')).
  Proof.
    intros A B s o Hg Hp H. inversion H; subst.
    - apply tm_alt. now apply A.
    - apply tm_alt_next; [now apply A|now apply B].
  Qed.
  Lemma le_star P e e' : le any e e' -> le P (TStar e) (TStar e').
  Proof.
    intros A s o Hg _ H. remember (TStar e) as x eqn:E. revert E. induction H; intros E; try discriminate E; inversion E; subst.
    - eapply tm_star; [apply A; eauto; exact I|]. apply IHtm2; auto. eapply gnext; eauto.
    - apply tm_star_end. apply A; auto. exact I.
  Qed.
  Lemma le_plus P e e' : le any e e' -> le P (TPlus e) (TPlus e').
  Proof.
    intros A s o Hg _ H. inversion H; subst.
    - eapply tm_plus; [apply A; eauto; exact I|]. eapply (le_star any); eauto; [eapply gnext; eauto|exact I].
    - apply tm_plus_no. apply A; auto. exact I.
  Qed.
  Lemma le_opt P e e' : le P e e' -> le P (TOpt e) (TOpt e').
  Proof. intros A s o Hg Hp H. inversion H; subst; [apply tm_opt|apply tm_opt_none]; now apply A. Qed.
  Lemma le_not P e e' : le P e e' -> le P (TNot e) (TNot e').
  Proof. intros A s o Hg Hp H. inversion H; subst; [eapply tm_not|apply tm_not_none]; apply A; eauto. Qed.
  Lemma le_ref P n e e' : rule_of n G = Some e' -> le P e e' -> le P e (TRef n).
  Proof. intros R A s o Hg Hp H. eapply tm_ref; [exact R|]. now apply A. Qed.
  Lemma le_unref P n e e' : rule_of n G = Some e -> le P e e' -> le P (TRef n) e'.
  Proof. intros R A s o Hg Hp H. inversion H; subst. apply A; auto. congruence. Qed.
  Lemma le_seq1 P e e' : le P e e' -> le P e (TSeq [e']).
  Proof.
    intros A s o Hg Hp H. apply A in H; auto. destruct o; [eapply tm_seq; [exact H|apply tm_seq_end]|now apply tm_seq_no].
  Qed.
  Lemma le_unseq1 P e e' : le P e e' -> le P (TSeq [e]) e'.
  Proof.
    intros A s o Hg Hp H. apply A; auto. inversion H; subst; [|assumption]. match goal with K : Treetop.tm G (TSeq []) _ _ |- _ => inversion K; subst end. assumption.
  Qed.
  (** an alternative that never matches *)
  Lemma le_skip (P : list N -> Prop) e es es' : (forall s, good s -> P s -> tm e s None) -> le P (TAlt es) (TAlt es') -> le P (TAlt es) (TAlt (e :: es')).
  Proof. intros A B s o Hg Hp H. apply tm_alt_next; [now apply A|now apply B]. Qed.
  Lemma le_unskip (P : list N -> Prop) e es es' : (forall s, good s -> P s -> tm e s None) -> le P (TAlt es) (TAlt es') -> le P (TAlt (e :: es)) (TAlt es').
  Proof.
    intros A B s o Hg Hp H. inversion H; subst; [|now apply B]. match goal with K : Treetop.tm G e s _ |- _ => pose proof (tm_fun G _ _ _ K _ (A s Hg Hp)) as X end. discriminate X.
  Qed.

  Lemma repl_le a c : le any a c -> forall e, le any e (repl a c e).
  Proof.
    intros A. assert (K : forall e e', le any e e' -> le any e (if tx_eqb e a then c else e')).
    { intros e e' H. destruct (tx_eqb e a) eqn:E; [|exact H]. apply tx_eqb_eq in E as ->. exact A. }
    induction e using tx_ind'; cbn [repl]; apply K; try apply le_refl.
    - induction H; cbn [map]; [apply le_refl|]. apply le_seq; auto.
    - induction H; cbn [map]; [apply le_refl|]. apply le_alt; auto.
    - now apply le_star.
    - now apply le_plus.
    - now apply le_opt.
    - now apply le_not.
  Qed.
  Lemma repls_le l : Forall (fun p => le any (fst p) (snd p)) l -> forall e, le any e (repls l e).
  Proof.
    unfold repls. induction 1 as [|p l Hp H IH]; intros e; cbn [fold_left]; [apply le_refl|]. exact (le_trans _ _ _ _ (repl_le _ _ Hp e) (IH _)).
  Qed.
  Lemma mkseq_iff l s o : tm (TSeq l) s o -> tm (mkseq l) s o.
  Proof.
    destruct l as [|x [|y l]]; auto. intros H. inversion H; subst; [|assumption].
    match goal with K : Treetop.tm G (TSeq []) _ _ |- _ => inversion K; subst end. assumption.
  Qed.
  Lemma mkalt_iff l s o : tm (TAlt l) s o -> tm (mkalt l) s o.
  Proof.
    destruct l as [|x [|y l]]; auto. intros H. inversion H; subst; [assumption|].
    match goal with K : Treetop.tm G (TAlt []) _ _ |- _ => inversion K; subst end. assumption.
  Qed.
  Lemma seq_app l m s s' o : tm (TSeq l) s (Some s') -> tm (TSeq m) s' o -> tm (TSeq (l ++ m)) s o.
  Proof.
    revert s. induction l as [|x l IH]; intros s H K; inversion H; subst; cbn [app]; [exact K|]. eapply tm_seq; eauto.
  Qed.
  Lemma seq_app_no l m s : tm (TSeq l) s None -> tm (TSeq (l ++ m)) s None.
  Proof.
    revert s. induction l as [|x l IH]; intros s H; inversion H; subst; cbn [app]; [eapply tm_seq; eauto|now apply tm_seq_no].
  Qed.
  Lemma alt_app l m s r : tm (TAlt l) s (Some r) -> tm (TAlt (l ++ m)) s (Some r).
  Proof.
    induction l as [|x l IH]; intros H; inversion H; subst; cbn [app]; [now apply tm_alt|apply tm_alt_next; auto].
  Qed.
  Lemma alt_app_next l m s o : tm (TAlt l) s None -> tm (TAlt m) s o -> tm (TAlt (l ++ m)) s o.
  Proof.
    induction l as [|x l IH]; intros H K; inversion H; subst; cbn [app]; [exact K|apply tm_alt_next; auto].
  Qed.
  Lemma flats_iff e s o : tm e s o -> tm (TSeq (flats e)) s o.
  Proof.
    intros H. assert (K : tm (TSeq [e]) s o) by (destruct o; [eapply tm_seq; [exact H|apply tm_seq_end]|now apply tm_seq_no]). destruct e; try exact K. exact H.
  Qed.
  Lemma flata_iff e s o : tm e s o -> tm (TAlt (flata e)) s o.
  Proof.
    intros H. assert (K : tm (TAlt [e]) s o) by (destruct o; [now apply tm_alt|apply tm_alt_next; [exact H|constructor]]). destruct e; try exact K. exact H.
  Qed.
  Lemma simp_le e : le any e (simp e).
  Proof.
    induction e using tx_ind'; cbn [simp]; try apply le_refl.
    - intros s o Hg _ K. apply mkseq_iff. revert s o Hg K. induction H as [|x l Hx H IH]; intros s o Hg K; cbn [flat_map]; [exact K|].
      inversion K; subst.
      + eapply seq_app; [apply flats_iff, Hx; eauto; exact I|]. apply IH; auto. eapply gnext; eauto.
      + apply seq_app_no, flats_iff, Hx; auto. exact I.
    - intros s o Hg _ K. apply mkalt_iff. revert s o Hg K. induction H as [|x l Hx H IH]; intros s o Hg K; cbn [flat_map]; [exact K|].
      inversion K; subst.
      + apply alt_app, flata_iff, Hx; auto. exact I.
      + apply alt_app_next; [apply flata_iff, Hx; auto; exact I|]. apply IH; auto.
    - now apply le_star.
    - now apply le_plus.
    - now apply le_opt.
    - now apply le_not.
  Qed.

  (** ** Gaps *)
  Variable item : tx.
  Hypothesis gap_rule : rule_of "_" G = Some (TStar item).
  Notation gap := (TRef "_").
  (** no gap here *)
  Definition gf (s : list N) : Prop := tm gap s (Some s).
  Lemma star_some e s : tm (TStar e) s None -> False.
  Proof. intros H. remember (TStar e) as x eqn:E. remember None as o eqn:O. revert E O. induction H; intros E O; try discriminate E; try discriminate O. auto. Qed.
  Lemma star_stop e s r : tm (TStar e) s (Some r) -> tm (TStar e) r (Some r).
  Proof.
    intros H. remember (TStar e) as x eqn:E. remember (Some r) as o eqn:O. revert E O. induction H; intros E O; try discriminate E; inversion E; inversion O; subst; auto.
    now apply tm_star_end.
  Qed.
  Lemma gap_total s : tm gap s None -> False.
  Proof. intros H. inversion H; subst. rewrite gap_rule in *. match goal with A : Some _ = Some _ |- _ => inversion A; subst end. eapply star_some; eauto. Qed.
  Lemma gap_once s r : tm gap s (Some r) -> gf r.
  Proof. intros H. inversion H; subst. eapply tm_ref; [eassumption|]. rewrite gap_rule in *. match goal with A : Some _ = Some _ |- _ => inversion A; subst end. eapply star_stop; eauto. Qed.
  Lemma gap_id s r : gf s -> tm gap s (Some r) -> r = s.
  Proof. intros A B. pose proof (tm_fun G _ _ _ A _ B). congruence. Qed.
  Lemma le_gap P es es' : le gf (TSeq es) (TSeq es') -> le P (TSeq (gap :: es)) (TSeq (gap :: es')).
  Proof.
    intros A s o Hg Hp H. inversion H; subst; [|exfalso; eapply gap_total; eassumption]. eapply tm_seq; [eassumption|]. apply A; [eapply gnext; eauto|eapply gap_once; eauto|assumption].
  Qed.
  Lemma drop_gap es es' : le gf (TSeq es) (TSeq es') -> le gf (TSeq (gap :: es)) (TSeq es').
  Proof.
    intros A s o Hg Hp H. inversion H; subst; [|exfalso; eapply gap_total; eassumption]. match goal with K : Treetop.tm G gap s (Some _) |- _ => pose proof (gap_id _ _ Hp K) as -> end. now apply A.
  Qed.
  (** the same, one expression *)
  Lemma drop_gap1 e e' : le gf e e' -> le gf (TSeq [gap; e]) e'.
  Proof.
    intros A s o Hg Hp H. inversion H; subst; [|exfalso; eapply gap_total; eassumption]. match goal with K : Treetop.tm G gap s (Some _) |- _ => pose proof (gap_id _ _ Hp K) as -> end. apply A; auto.
    match goal with K : Treetop.tm G (TSeq [e]) _ _ |- _ => inversion K; subst end; [|assumption]. match goal with K : Treetop.tm G (TSeq []) _ _ |- _ => inversion K; subst end. assumption.
  Qed.
  Lemma opt_gap P es e' k k' : le gf (TSeq es) e' -> le gf (TSeq k) (TSeq k') -> le P (TSeq (TOpt (TSeq (gap :: es)) :: gap :: k)) (TSeq (gap :: TOpt e' :: gap :: k')).
  Proof.
    intros E0 A s o Hg Hp H. inversion H; subst.
    - match goal with K : Treetop.tm G (TOpt _) _ _ |- _ => inversion K; subst end.
      + match goal with K : Treetop.tm G (TSeq (gap :: es)) _ _ |- _ => inversion K; subst end.
        eapply tm_seq; [eassumption|]. eapply tm_seq; [apply tm_opt; apply E0; [gd|eapply gap_once; eassumption|eassumption]|]. eapply (le_gap any); [exact A|gd|exact I|eassumption].
      + match goal with K : Treetop.tm G (TSeq (gap :: es)) _ _ |- _ => inversion K; subst end; [|exfalso; eapply gap_total; eauto].
        match goal with K : Treetop.tm G (TSeq (gap :: k)) _ _ |- _ => inversion K; subst end; [|exfalso; eapply gap_total; eauto].
        match goal with X : Treetop.tm G gap ?s (Some ?a), Y : Treetop.tm G gap ?s (Some ?b) |- _ => pose proof (tm_fun G _ _ _ X _ Y) as E; inversion E; subst end.
        eapply tm_seq; [eassumption|]. eapply tm_seq; [apply tm_opt_none; apply E0; [gd|eapply gap_once; eassumption|eassumption]|]. eapply tm_seq; [eapply gap_once; eassumption|].
        apply A; auto; [gd|eapply gap_once; eauto].
    - match goal with K : Treetop.tm G (TOpt _) _ None |- _ => inversion K end.
  Qed.
  Lemma star_gap_all e s o : tm (TStar (TSeq [gap; e])) s o -> forall s1 s2, o = Some s1 -> tm gap s1 (Some s2) ->
    exists s0, tm gap s (Some s0) /\ tm (TStar (TSeq [e; gap])) s0 (Some s2).
  Proof.
    intros H. remember (TStar (TSeq [gap; e])) as x eqn:E. revert E. induction H; intros E s1 s2 O K; try discriminate E; inversion E; inversion O; subst.
    - destruct (IHtm2 eq_refl s1 s2 eq_refl K) as (s0 & A & B). inversion H; subst. exists s'0. split; [assumption|].
      match goal with X : Treetop.tm G (TSeq [e]) _ _ |- _ => inversion X; subst end.
      match goal with X : Treetop.tm G (TSeq []) _ _ |- _ => inversion X; subst end.
      eapply tm_star; [|exact B]. eapply tm_seq; [eassumption|]. eapply tm_seq; [exact A|apply tm_seq_end].
    - inversion H; subst; [|exfalso; eapply gap_total; eauto]. 
      match goal with X : Treetop.tm G gap ?s (Some ?a), Y : Treetop.tm G gap ?s (Some ?b) |- _ => pose proof (tm_fun G _ _ _ X _ Y) as Z; inversion Z; subst end.
      eexists. split; [eassumption|]. apply tm_star_end. apply tm_seq_no.
      match goal with X : Treetop.tm G (TSeq [e]) _ _ |- _ => inversion X; subst end; [|assumption].
      match goal with X : Treetop.tm G (TSeq []) _ None |- _ => inversion X end.
  Qed.
  Lemma star_gap P e e' k k' : le any (TSeq [e; gap]) e' -> le gf (TSeq k) (TSeq k') -> le P (TSeq (TStar (TSeq [gap; e]) :: gap :: k)) (TSeq (gap :: TStar e' :: k')).
  Proof.
    intros E A s o Hg Hp H. inversion H; subst; [|exfalso; eapply star_some; eauto].
    match goal with X : Treetop.tm G (TSeq (gap :: _)) _ _ |- _ => inversion X; subst end; [|exfalso; eapply gap_total; eauto].
    match goal with X : Treetop.tm G (TStar _) _ _ |- _ => destruct (star_gap_all _ _ _ X _ _ eq_refl ltac:(eassumption)) as (s0 & B & C) end.
    assert (Gd : good s0) by (eapply gnext; eauto).
    eapply tm_seq; [exact B|]. eapply tm_seq; [eapply (le_star any); [exact E|exact Gd|exact I|exact C]|]. apply A; auto; [gd|eapply gap_once; eauto].
  Qed.
  Lemma alt_gap P a c : le P (TAlt [TSeq [gap; a]; TSeq [gap; c]]) (TSeq [gap; TAlt [a; c]]).
  Proof.
    intros s o Hg Hp H.
    assert (K : forall x o, tm (TSeq [gap; x]) s o -> exists s0, tm gap s (Some s0) /\ tm x s0 o).
    { intros x o' X. inversion X; subst; [|exfalso; eapply gap_total; eauto]. eexists. split; [eassumption|].
      match goal with X : Treetop.tm G (TSeq [x]) _ _ |- _ => inversion X; subst end; [|assumption].
      match goal with X : Treetop.tm G (TSeq []) _ _ |- _ => inversion X; subst end. assumption. }
    assert (L : forall s0 o, tm gap s (Some s0) -> tm (TAlt [a; c]) s0 o -> tm (TSeq [gap; TAlt [a; c]]) s o).
    { intros s0 o' X Y. eapply tm_seq; [exact X|]. destruct o'; [eapply tm_seq; [exact Y|apply tm_seq_end]|now apply tm_seq_no]. }
    inversion H; subst.
    - match goal with X : Treetop.tm G (TSeq [gap; a]) _ _ |- _ => destruct (K _ _ X) as (s0 & A & B) end. eapply L; [exact A|]. now apply tm_alt.
    - match goal with X : Treetop.tm G (TSeq [gap; a]) _ _ |- _ => destruct (K _ _ X) as (s0 & A & B) end.
      match goal with X : Treetop.tm G (TAlt [_]) _ _ |- _ => inversion X; subst end.
      + match goal with X : Treetop.tm G (TSeq [gap; c]) _ _ |- _ => destruct (K _ _ X) as (s1 & C & D) end. pose proof (tm_fun G _ _ _ A _ C) as E. inversion E; subst. eapply L; [exact A|]. apply tm_alt_next; [exact B|now apply tm_alt].
      + match goal with X : Treetop.tm G (TAlt []) _ _ |- _ => inversion X; subst end.
        match goal with X : Treetop.tm G (TSeq [gap; c]) _ _ |- _ => destruct (K _ _ X) as (s1 & C & D) end. pose proof (tm_fun G _ _ _ A _ C) as E. inversion E; subst. eapply L; [exact A|]. apply tm_alt_next; [exact B|apply tm_alt_next; [exact D|constructor]].
  Qed.
  (** further sections: a gap more in front of the repetition *)
  Lemma gap_star P e k k' : le gf (TSeq k) (TSeq k') -> le P (TSeq (TStar (TSeq [gap; e]) :: gap :: k)) (TSeq (gap :: TStar (TSeq [gap; e]) :: gap :: k')).
  Proof.
    intros A s o Hg Hp H. inversion H; subst; [|exfalso; eapply star_some; eauto].
    match goal with X : Treetop.tm G (TStar _) _ _ |- _ => inversion X; subst end.
    - match goal with X : Treetop.tm G (TSeq [gap; e]) _ _ |- _ => inversion X; subst end.
      eapply tm_seq; [eassumption|]. eapply tm_seq; [eapply tm_star; [eapply tm_seq; [eapply gap_once; eassumption|eassumption]|eassumption]|].
      eapply (le_gap any); [exact A|gd|exact I|eassumption].
    - match goal with X : Treetop.tm G (TSeq (gap :: k)) _ _ |- _ => inversion X; subst end; [|exfalso; eapply gap_total; eauto].
      match goal with X : Treetop.tm G (TSeq [gap; e]) _ None |- _ => inversion X; subst end; [|exfalso; eapply gap_total; eauto].
      match goal with X : Treetop.tm G gap ?s (Some ?a), Y : Treetop.tm G gap ?s (Some ?b) |- _ => pose proof (tm_fun G _ _ _ X _ Y) as Z; inversion Z; subst end.
      eapply tm_seq; [eassumption|]. eapply tm_seq; [apply tm_star_end; eapply tm_seq; [eapply gap_once; eassumption|eassumption]|].
      eapply tm_seq; [eapply gap_once; eassumption|]. apply A; auto; [gd|eapply gap_once; eauto].
  Qed.
End Laws.
